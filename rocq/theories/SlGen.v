(* The matrices of SpecialLinearGroup.get_generating_mats (abstract.py:1349-1366) generate all matrices of determinant one. *)
From mathcomp Require Import all_ssreflect all_algebra all_fingroup ring zify.
From Verif Require Import LinAlg Classical ClassicalProofs PermGroup GroupTable GroupTerm.
Set Implicit Arguments.
Unset Strict Implicit.
Unset Printing Implicit Defensive.
Import GRing.Theory.
Local Open Scope ring_scope.

Section Trans.
Variables (F : fieldType) (d' : nat).
Local Notation d := d'.+2.
Local Notation M := 'M[F]_d.
Implicit Types (A B : 'M[F]_d) (i j k : 'I_d) (a b : F).

(* transvections *)
Definition tv i j a : M := 1%:M + a *: delta_mx i j.

Lemma delta_mul i j k l : (delta_mx i j : M) *m delta_mx k l = (j == k)%:R *: (delta_mx i l : M).
Proof.
case: eqP => [-> | ne]; first by rewrite mul_delta_mx scale1r.
by rewrite mul_delta_mx_0 ?scale0r //; apply/eqP.
Qed.
Lemma tvD i j a b : i != j -> tv i j a *m tv i j b = tv i j (a + b).
Proof.
move=> ij; rewrite /tv mulmxDl mul1mx mulmxDr mulmx1 -scalemxAl -scalemxAr delta_mul eq_sym (negbTE ij) scale0r !scaler0 addr0.
by rewrite -addrA -scalerDl [b + a]addrC.
Qed.
Lemma tv0 i j : tv i j 0 = 1%:M. Proof. by rewrite /tv scale0r addr0. Qed.
Lemma tvN i j a : i != j -> tv i j a *m tv i j (- a) = 1%:M. Proof. by move=> ij; rewrite tvD // subrr tv0. Qed.
(* row operations *)
Lemma tvE i j a A p r : (tv i j a *m A) p r = A p r + (p == i)%:R * (a * A j r).
Proof.
rewrite /tv mulmxDl mul1mx -scalemxAl !mxE (bigD1 j) //= big1 => [|l nl]; last first.
  by rewrite !mxE (negbTE nl) andbF mul0r.
by rewrite !mxE eqxx andbT addr0 mulrCA.
Qed.
Lemma tv_comm i j k a b : i != j -> j != k -> i != k ->
  tv i j a *m tv j k b *m tv i j (- a) *m tv j k (- b) = tv i k (a * b).
Proof.
move=> ij jk ik; have ji : j != i by rewrite eq_sym.
have ki : k != i by rewrite eq_sym.
have kj : k != j by rewrite eq_sym.
have E (A : M) : tv i j a *m (tv j k b *m A) = tv i k (a * b) *m (tv j k b *m (tv i j a *m A)).
  apply/matrixP => p r; rewrite !tvE ?eqxx ?(negbTE ij) ?(negbTE ji) ?(negbTE ki) ?(negbTE kj) /=.
  move: (p == i)%:R (p == j)%:R => e1 e2; ring.
have E1 := E 1%:M; rewrite !mulmx1 in E1.
by rewrite E1 -!mulmxA [tv i j a *m _]mulmxA tvN // mul1mx tvN // mulmx1.
Qed.

Section Closed.
Variable P : M -> Prop.
Hypothesis Pm : forall A B, P A -> P B -> P (A *m B).
Hypothesis Pt : forall i j a, i != j -> P (tv i j a).

Lemma P1 : P 1%:M.
Proof. by rewrite -(@tv0 0 1); apply: Pt. Qed.

(* several multiples of one row are added to other rows *)
Lemma P_col k (c : 'I_d -> F) : c k = 0 -> P (1%:M + \sum_i c i *: delta_mx i k).
Proof.
move=> ck; have := index_enum [finType of 'I_d]; rewrite /index_enum.
suff h (s : seq 'I_d) : P (1%:M + \sum_(i <- s) c i *: delta_mx i k) by move=> _; apply: h.
elim: s => [|i s IH]; first by rewrite big_nil addr0; apply: P1.
rewrite big_cons; case: (eqVneq i k) => [->|ne]; first by rewrite ck scale0r add0r.
suff <- : tv i k (c i) *m (1%:M + \sum_(j <- s) c j *: delta_mx j k) = 1%:M + (c i *: delta_mx i k + \sum_(j <- s) c j *: delta_mx j k).
  by apply: Pm => //; apply: Pt.
rewrite /tv mulmxDl mul1mx mulmxDr mulmx1.
have -> : (c i *: delta_mx i k : M) *m (\sum_(j <- s) c j *: delta_mx j k) = 0.
  rewrite mulmx_sumr big1 // => j _; rewrite -scalemxAl -scalemxAr delta_mul; case: (eqVneq k j) => [<-|_].
    by rewrite ck !scale0r !scaler0.
  by rewrite scale0r !scaler0.
by rewrite addr0 -addrA; congr (_ + _); rewrite addrC.
Qed.
Lemma det_tv i j a : i != j -> \det (tv i j a) = 1.
Proof.
wlog: i j / (i < j)%N.
  move=> h ij; case: (ltngtP i j) => e; [exact: h | | by rewrite (val_inj e) eqxx in ij].
  rewrite -det_tr; have -> : (tv i j a)^T = tv j i a by rewrite /tv linearD linearZ /= trmx1 trmx_delta.
  by apply: h => //; rewrite eq_sym.
move=> lt ij; rewrite -det_tr det_trig.
  by apply: big1 => r _; rewrite !mxE eqxx; case: (eqVneq r i) => [->|]; rewrite /= ?(negbTE ij) ?mulr0 ?addr0 ?andbF.
apply/is_trig_mxP => r s rs; rewrite !mxE; have -> : (s == r) = false by apply/eqP => e; rewrite e ltnn in rs.
case: (eqVneq s i) => [e1|]; case: (eqVneq r j) => [e2|]; rewrite /= ?mulr0 ?addr0 //.
by move: rs; rewrite e1 e2 ltnNge ltnW.
Qed.

(* the first k columns of A are those of the identity *)
Definition begins (k0 : nat) A : Prop := forall i j, (j < k0)%N -> A i j = (i == j)%:R.

Lemma begins_tv (k0 : nat) i j a A : begins k0 A -> (k0 <= j)%N -> begins k0 (tv i j a *m A).
Proof.
move=> h hj p r hr; rewrite tvE !h //; have -> : (j == r) = false by apply/eqP => e; move: hr; rewrite -e ltnNge hj.
by rewrite !mulr0 addr0.
Qed.

Lemma nonzero k A : begins k A -> \det A != 0 -> exists2 i : 'I_d, (k <= i)%N & A i k != 0.
Proof.
move=> h dA; case: (pickP (fun i : 'I_d => (k <= i)%N && (A i k != 0))) => [i /andP [h1 h2] | no]; first by exists i.
pose v : 'cV[F]_d := \col_j (if j == k then 1 else if (j < k)%N then - A j k else 0).
have Av : A *m v = 0.
  apply/matrixP => i z; rewrite !mxE (bigD1 k) //= mxE eqxx mulr1.
  have -> : \sum_(j | j != k) A i j * v j z = \sum_(j | j != k) (if (j < k)%N then (i == j)%:R * - A j k else 0).
    apply: eq_bigr => j nj; rewrite mxE (negbTE nj); case: ltnP => hj; last by rewrite mulr0.
    by rewrite h.
  case: (ltnP i k) => hi.
    rewrite (bigD1 i) /=; last by apply/eqP => e; rewrite e ltnn in hi.
    rewrite hi eqxx mul1r big1 ?addr0 ?subrr // => j /andP [_ nj]; case: ifP => // _.
    by rewrite eq_sym (negbTE nj) mul0r.
  rewrite big1 ?addr0; last first.
    move=> j nj; case: ifP => // hj; have -> : (i == j) = false by apply/eqP => e; move: hj; rewrite -e ltnNge hi.
    by rewrite mul0r.
  by have := no i; rewrite hi /= => /negbFE /eqP.
have : v = 0.
  have uA : A \in unitmx by rewrite unitmxE unitfE.
  by rewrite -[v]mul1mx -(mulVmx uA) -mulmxA Av mulmx0.
by move=> /matrixP /(_ k 0); rewrite !mxE eqxx => /eqP; rewrite oner_eq0.
Qed.

Lemma step3 k A : begins k A -> A k k = 1 -> exists B, [/\ P B, B \in unitmx, begins k.+1 (B *m A), \det (B *m A) = \det A
  & exists2 C, P C & C *m B = 1%:M].
Proof.
move=> h e1; pose c i := if i == k then 0 else - A i k.
have ck : c k = 0 by rewrite /c eqxx.
pose B : M := 1%:M + \sum_i c i *: delta_mx i k; pose C : M := 1%:M + \sum_i (- c i) *: delta_mx i k.
have BE (Y : M) p r : ((1%:M + \sum_i c i *: delta_mx i k) *m Y) p r = Y p r + c p * Y k r.
  rewrite mulmxDl mul1mx mxE mulmx_suml summxE (bigD1 p) //= big1 => [|i ni]; last first.
    by rewrite -scalemxAl mxE mxE big1 ?mulr0 // => l _; rewrite mxE eq_sym (negbTE ni) mul0r.
  rewrite addr0 -scalemxAl mxE mxE (bigD1 k) //= big1 => [|l nl]; last by rewrite mxE (negbTE nl) andbF mul0r.
  by rewrite mxE !eqxx mul1r addr0.
have CB : C *m B = 1%:M.
  rewrite /C /B mulmxDl mul1mx mulmxDr mulmx1.
  have -> : (\sum_i - c i *: delta_mx i k : M) *m (\sum_i c i *: delta_mx i k) = 0.
    rewrite mulmx_suml big1 // => i _; rewrite mulmx_sumr big1 // => j _; rewrite -scalemxAl -scalemxAr delta_mul.
    by case: (eqVneq k j) => [<-|_]; rewrite ?ck ?scale0r !scaler0 ?scale0r.
  by rewrite addr0 -addrA -big_split /= big1 ?addr0 // => i _; rewrite -scalerDl subrr scale0r.
have dB : \det B = 1.
  have dC (e : 'I_d -> F) : e k = 0 -> \det (1%:M + \sum_i e i *: delta_mx i k : M) = 1.
    move=> ek; have := index_enum [finType of 'I_d]; rewrite /index_enum.
    suff hh (s : seq 'I_d) : \det (1%:M + \sum_(i <- s) e i *: delta_mx i k : M) = 1 by move=> _; apply: hh.
    elim: s => [|i s IH]; first by rewrite big_nil addr0 det1.
    rewrite big_cons; case: (eqVneq i k) => [->|ne]; first by rewrite ek scale0r add0r.
    have <- : tv i k (e i) *m (1%:M + \sum_(j <- s) e j *: delta_mx j k) = 1%:M + (e i *: delta_mx i k + \sum_(j <- s) e j *: delta_mx j k).
      rewrite /tv mulmxDl mul1mx mulmxDr mulmx1.
      have -> : (e i *: delta_mx i k : M) *m (\sum_(j <- s) e j *: delta_mx j k) = 0.
        rewrite mulmx_sumr big1 // => j _; rewrite -scalemxAl -scalemxAr delta_mul; case: (eqVneq k j) => [<-|_].
          by rewrite ek !scale0r !scaler0.
        by rewrite scale0r !scaler0.
      by rewrite addr0 -addrA; congr (_ + _); rewrite addrC.
    by rewrite det_mulmx det_tv // IH mulr1.
  exact: dC.
exists B; split; [exact: P_col | by case/mulmx1_unit: CB | | by rewrite det_mulmx dB mul1r |].
  move=> i j; rewrite ltnS leq_eqVlt => /orP [/eqP /val_inj -> | hj]; rewrite BE.
    by rewrite e1 mulr1 /c; case: (eqVneq i k) => [->|_]; rewrite ?e1 ?addr0 ?subrr.
  rewrite !h //; have -> : (k == j) = false by apply/eqP => e; move: hj; rewrite e ltnn.
  by rewrite mulr0 addr0.
by exists C => //; apply: P_col; rewrite ck oppr0.
Qed.

Lemma P_inv A B C : C *m B = 1%:M -> P C -> P (B *m A) -> P A.
Proof. by move=> cb pc pb; rewrite -[A]mul1mx -cb -mulmxA; apply: Pm. Qed.

Lemma sl_gauss m (k0 : nat) A : (k0 + m = d)%N -> \det A = 1 -> begins k0 A -> P A.
Proof.
elim: m k0 A => [|m IH] k0 A.
  rewrite addn0 => -> _ h; have -> : A = 1%:M by apply/matrixP => i j; rewrite h // mxE.
  exact: P1.
move=> km dA h; have kd : (k0 < d)%N by rewrite -km -addSnnS leq_addr.
pose k := Ordinal kd.
(* after the entry at (k, k) is one, the column is cleared *)
have fin B : \det B = 1 -> begins k0 B -> B k k = 1 -> P B.
  move=> dB hB e; have [C [pC uC bC dC [C' pC' cc]]] := step3 (hB : begins k B) e.
  by apply: (P_inv cc pC'); apply: IH bC; rewrite ?dC // addSnnS.
have [e|m0] := posnP m.
  (* the last column *)
  apply: fin => //; move: dA; rewrite -det_tr det_trig; last first.
    apply/is_trig_mxP => r s rs; rewrite mxE h; first by case: eqP => // ee; rewrite ee ltnn in rs.
    by apply: leq_trans rs _; move: (ltn_ord s) km; rewrite e; clear; lia.
  rewrite (bigD1 k) //= big1 ?mulr1 ?mxE // => i ni; rewrite mxE h ?eqxx //.
  have : (i : nat) <> k0 by move=> ee; move: ni; rewrite (_ : i = k) ?eqxx //; apply: val_inj.
  by move: (ltn_ord i) km; rewrite e; clear; lia.
(* a nonzero entry below (k, k) *)
have dA0 : \det A != 0 by rewrite dA oner_neq0.
have nxt B i : \det B = 1 -> begins k0 B -> (k0 < i)%N -> B i k != 0 -> P B.
  move=> dB hB hi bi; have ki : k != i by apply/eqP => e; rewrite -e ltnn in hi.
  pose a := (1 - B k k) / B i k.
  have Nt : tv k i (- a) *m tv k i a = 1%:M by rewrite -{2}[a]opprK tvN.
  apply: (P_inv Nt); first exact: Pt.
  apply: fin; first by rewrite det_mulmx det_tv // mul1r.
    by apply: begins_tv => //; apply: ltnW.
  by rewrite tvE eqxx mul1r /a divfK // addrC subrK.
have [i hi ai] := nonzero (h : begins k A) dA0; move: hi; rewrite leq_eqVlt => /orP [/eqP /val_inj e | hi]; last exact: nxt ai.
have k1d : (k0.+1 < d)%N by move: m0 km; clear; lia.
pose k1 := Ordinal k1d; have n1 : k1 != k by apply/eqP => /(congr1 val) /=; clear; lia.
case: (eqVneq (A k1 k) 0) => [z|nz]; last by apply: nxt nz.
have Nt : tv k1 k (- 1) *m tv k1 k 1 = 1%:M by rewrite -{2}[1]opprK tvN.
apply: (P_inv Nt); first exact: Pt.
apply: (nxt _ k1) => //; first by rewrite det_mulmx det_tv // mul1r.
  exact: begins_tv.
by rewrite tvE eqxx !mul1r z add0r; move: ai; rewrite -e.
Qed.
Lemma sl_trans A : \det A = 1 -> P A.
Proof. by move=> dA; apply: (@sl_gauss d 0) => // i j. Qed.
End Closed.
End Trans.

Section Gen.
Variables (F : fieldType) (d' : nat).
Local Notation d := d'.+2.
Local Notation M := 'M[F]_d.
Local Notation tv := (@tv F d').
Implicit Types (A B : 'M[F]_d) (i j k : 'I_d) (a b : F).

(* the cycle that sends unit vector j to plus or minus unit vector j + 1 *)
Definition sg j : F := if j == - 1 then 1 else - 1.
Definition cyc : M := \matrix_(i, j) (if i == j + 1 then sg j else 0).
Lemma sg2 j : sg j * sg j = 1. Proof. by rewrite /sg; case: eqP; rewrite ?mulr1 // mulrNN mulr1. Qed.

Lemma cyc_delta i j : cyc *m delta_mx i j = sg i *: delta_mx (i + 1) j.
Proof.
apply/matrixP => p r; rewrite !mxE (bigD1 i) //= big1 => [|l nl]; last by rewrite !mxE (negbTE nl) mulr0.
by rewrite !mxE eqxx addr0 /=; case: (p == i + 1); case: (r == j); rewrite /= ?mulr1 ?mulr0 ?mul0r.
Qed.
Lemma delta_cyc i j : delta_mx i (j + 1) *m cyc = sg j *: delta_mx i j.
Proof.
apply/matrixP => p r; rewrite !mxE (bigD1 (j + 1)) //= big1 => [|l nl]; last by rewrite !mxE (negbTE nl) andbF mul0r.
rewrite !mxE eqxx addr0 andbT (inj_eq (addIr 1)) [j == r]eq_sym.
by case: (eqVneq r j) => [-> | _]; case: (p == i); rewrite /= ?mulr1 ?mulr0 ?mul0r ?mul1r.
Qed.
Lemma cyc_tv i j a : cyc *m tv i j a = tv (i + 1) (j + 1) (sg i * sg j * a) *m cyc.
Proof.
rewrite /SlGen.tv mulmxDr mulmx1 mulmxDl mul1mx -scalemxAr -scalemxAl cyc_delta delta_cyc !scalerA; congr (_ + _ *: _).
by rewrite [RHS]mulrC mulrA [sg j * _]mulrCA sg2 mulr1 mulrC.
Qed.
Lemma diag_tv (c : 'I_d -> F) i j a : c j != 0 ->
  diag_mx (\row_l c l) *m tv i j a = tv i j (c i / c j * a) *m diag_mx (\row_l c l).
Proof.
move=> cj; rewrite /SlGen.tv mulmxDr mulmx1 mulmxDl mul1mx -scalemxAr -scalemxAl; congr (_ + _).
apply/matrixP => p r; rewrite mul_diag_mx mul_mx_diag !mxE.
by case: (eqVneq p i) => [->|_]; case: (eqVneq r j) => [->|_]; rewrite /= ?mulr0 ?mul0r ?mulr0 // !mulr1 mul1r mulrAC divfK // mulrC.
Qed.
Lemma cyc_diag (c : 'I_d -> F) : cyc *m diag_mx (\row_l c l) = diag_mx (\row_l c (l - 1)) *m cyc.
Proof.
apply/matrixP => p r; rewrite mul_diag_mx mul_mx_diag !mxE; case: eqP => [->|_]; last by rewrite mul0r mulr0.
by rewrite addrK mulrC.
Qed.
Lemma diag_comm (c e : 'I_d -> F) : diag_mx (\row_l c l) *m diag_mx (\row_l e l) = diag_mx (\row_l e l) *m diag_mx (\row_l c l) :> M.
Proof. by rewrite !mulmx_diag; congr diag_mx; apply/rowP => j; rewrite !mxE mulrC. Qed.

Section Closed.
Variable P : M -> Prop.
Hypothesis Pm : forall A B, P A -> P B -> P (A *m B).
Hypothesis Pi : forall A B, A *m B = 1%:M -> P A -> P B.

Lemma P_conj A B C : P A -> P C -> A \in unitmx -> A *m C = B *m A -> P B.
Proof.
move=> pA pC uA e; have -> : B = A *m C *m invmx A by rewrite e -mulmxA mulmxV // mulmx1.
by apply: (Pm (Pm pA pC)); apply: (Pi (mulmxV uA)).
Qed.

Lemma ord_neq i (m : nat) : (0 < m < d)%N -> i != i + m%:R.
Proof.
move=> hm; rewrite -subr_eq0 opprD addrA subrr add0r oppr_eq0; apply/eqP => /(congr1 val) /=.
by rewrite Zp_nat /= modn_small; case/andP: hm => //; case: m.
Qed.

Lemma all_tv : P cyc -> cyc \in unitmx -> (forall a, P (tv 0 1 a)) -> forall i j a, i != j -> P (tv i j a).
Proof.
move=> pc uc h0.
have U i a : P (tv i (i + 1) a).
  rewrite -(natr_Zp i); elim: (i : nat) a => [|k IH] a; first by rewrite add0r.
  rewrite -addn1 natrD; apply: (P_conj pc (IH (sg k%:R * sg (k%:R + 1) * a)) uc); rewrite cyc_tv; congr (tv _ _ _ *m _).
  by rewrite mulrA mulrACA !sg2 !mul1r.
have V m i a : (0 < m < d)%N -> P (tv i (i + m%:R) a).
  elim: m i a => [|[|m] IH] i a // hm; have hm' : (0 < m.+1 < d)%N by move: hm; clear; lia.
  have h1 := IH i a hm'; have h1' := IH i (- a) hm'; have n1 := ord_neq i hm'; have n2 := ord_neq i hm.
  have n3 : i + m.+1%:R != i + m.+2%:R.
    rewrite -[m.+2]addn1 natrD addrA; exact: (@ord_neq (i + m.+1%:R) 1).
  have e3 : i + m.+2%:R = i + m.+1%:R + 1 by rewrite -[m.+2]addn1 natrD addrA.
  rewrite -[a]mulr1 -(tv_comm _ _ n1 n3 n2) e3.
  exact: (Pm (Pm (Pm h1 (U _ _)) h1') (U _ _)).
move=> i j a ij; have := V (j - i : 'I_d) i a; rewrite natr_Zp (_ : i + (j - i) = j); last by rewrite addrC subrK.
apply; rewrite ltn_ord andbT lt0n.
by apply: contra ij => /eqP e; rewrite eq_sym -subr_eq0; apply/eqP/val_inj.
Qed.
End Closed.
End Gen.

Section FiniteField.
Variables (F : finFieldType) (pe : F).
Hypothesis prim : forall x : F, x != 0 -> exists k, x = pe ^+ k.

Lemma card_ge (s : seq F) : uniq s -> (size s <= #|F|)%N.
Proof. by move=> u; rewrite cardE; apply: uniq_leq_size => // x _; rewrite mem_enum. Qed.
Lemma small_field (a : F) : (#|F| <= 3)%N -> [\/ a = 0, a = 1 | a = - 1].
Proof.
move=> q3; case: (eqVneq a 0) => [->|n0]; first by constructor 1.
case: (eqVneq a 1) => [->|n1]; first by constructor 2.
case: (eqVneq a (-1)) => [->|n2]; first by constructor 3.
case: (eqVneq (1 : F) (-1)) => [e|ne].
  have : uniq [:: 0; 1; a; 1 + a].
    rewrite /= !inE !negb_or [0 == 1]eq_sym oner_eq0 [0 == a]eq_sym n0 [1 == a]eq_sym n1 /=.
    have -> : (0 == 1 + a) = false by rewrite eq_sym addrC addr_eq0 (negbTE n2).
    have -> : (1 == 1 + a) = false by rewrite -{1}[1]addr0 (inj_eq (addrI 1)) eq_sym (negbTE n0).
    by rewrite -{1}[a]add0r (inj_eq (addIr a)) eq_sym oner_eq0.
  by move/card_ge => /=; rewrite leqNgt ltnS q3.
have : uniq [:: 0; 1; -1; a].
  rewrite /= !inE !negb_or [0 == 1]eq_sym oner_eq0 [0 == a]eq_sym n0 [1 == a]eq_sym n1 ne [-1 == a]eq_sym n2 /=.
  by rewrite [0 == _]eq_sym oppr_eq0 oner_eq0.
by move/card_ge => /=; rewrite leqNgt ltnS q3.
Qed.
Lemma pe0 : (3 < #|F|)%N -> pe != 0.
Proof.
move=> q3; apply/eqP => z; have h (x : F) : x != 0 -> x = 1.
  by move=> nx; have [[|k] e] := prim nx; rewrite e ?expr0 //; move: nx; rewrite e z expr0n /= eqxx.
suff : (#|F| <= 2)%N by move: q3; clear; lia.
rewrite cardE; apply: (@uniq_leq_size _ _ [:: 0; 1]) (enum_uniq _) _ => x _; rewrite !inE.
by case: (eqVneq x 0) => //= /h ->.
Qed.
Lemma pe2 : (3 < #|F|)%N -> pe ^+ 2 != 1.
Proof.
move=> q3; apply/eqP => z; have h (x : F) : x != 0 -> x = 1 \/ x = pe.
  move=> nx; have [k ->] := prim nx; rewrite -(odd_double_half k) exprD -muln2 mulnC exprM z expr1n mulr1.
  by case: (odd k); [right | left].
suff : (#|F| <= 3)%N by move: q3; clear; lia.
rewrite cardE; apply: (@uniq_leq_size _ _ [:: 0; 1; pe]) (enum_uniq _) _ => x _; rewrite !inE.
by case: (eqVneq x 0) => //= /h [] ->; rewrite eqxx ?orbT.
Qed.

(* an additive set that is closed under multiplication by the square of the primitive element *)
Lemma squares (K : F -> Prop) e : e != 0 -> K e -> (forall a b, K a -> K b -> K (a + b)) -> (forall a, K a -> K (- a)) ->
  (forall a, K a -> K (pe ^+ 2 * a)) -> forall a, K a.
Proof.
move=> e0 ke kD kN kM.
have k0 : K 0 by rewrite -(subrr e); apply: kD => //; apply: kN.
have sq t : K (t ^+ 2 * e).
  case: (eqVneq t 0) => [->|nt]; first by rewrite expr0n mul0r.
  have [k ->] := prim nt; rewrite -exprM mulnC exprM; elim: k => [|k IH]; first by rewrite expr0 mul1r.
  by rewrite exprS -mulrA; apply: kM.
have key a : K (a * e); last by move=> a; rewrite -(divfK e0 a).
case: (eqVneq (1 + 1 : F) 0) => [c2|c2].
  have inj : injective (fun x : F => x ^+ 2).
    move=> x y /eqP; rewrite -subr_eq0 subr_sqr mulf_eq0 => /orP [] /eqP e1; first exact: subr0_eq.
    by rewrite -[x]addr0 -[0](mul0r y) -c2 mulrDl mul1r addrA e1 add0r.
  by have [g _ gK] := injF_bij inj; rewrite -(gK a).
pose u := (a + 1) / (1 + 1); pose v := (a - 1) / (1 + 1).
have -> : a = u ^+ 2 - v ^+ 2 by rewrite /u /v; field.
by rewrite mulrBl; apply: kD => //; apply: kN.
Qed.

Variable d' : nat.
Local Notation d := d'.+2.
Local Notation M := 'M[F]_d.
Local Notation tv := (@tv F d').
Local Notation q := #|F|.

Definition xdiag (i : 'I_d) : F := if i == 0 then pe else if i == 1 then pe^-1 else 1.
Definition gx : M := if (q <= 3)%N then tv 0 1 1 else diag_mx (\row_i xdiag i).
Definition gw : M := if (q <= 3)%N then cyc F d' else tv 0 1 1 *m cyc F d'.

Lemma ord01 : (0 : 'I_d) != 1. Proof. by []. Qed.
Lemma val_succ (j : 'I_d) : nat_of_ord (j + 1) = if j == d'.+1 :> nat then 0%N else j.+1.
Proof.
rewrite /= [(1 %% _)%N]modn_small // addn1; have := ltn_ord j; case: eqP => [->|n] h; first by rewrite modnn.
by rewrite modn_small //; move: n h; clear; lia.
Qed.
Lemma val_m1 : nat_of_ord (- 1 : 'I_d) = d'.+1.
Proof. by rewrite /= [(1 %% _)%N]modn_small // subSS subn0 modn_small. Qed.
Lemma eq_succ (i j : 'I_d) : (i == j + 1) = (nat_of_ord i == if j == d'.+1 :> nat then 0%N else j.+1).
Proof. by rewrite -(val_succ j). Qed.
Lemma eq_m1 (j : 'I_d) : (j == - 1) = (nat_of_ord j == d'.+1).
Proof. by rewrite -[X in _ == X :> nat]val_m1. Qed.
Lemma det_cyc : \det (cyc F d') = 1.
Proof.
rewrite (expand_det_row _ 0) (bigD1 ord_max) //= big1 => [|j nj].
  rewrite mxE eq_succ /sg eq_m1 /= !eqxx mul1r addr0 /cofactor add0n.
  have -> : row' 0 (col' ord_max (cyc F d')) = (-1)%:M.
    apply/matrixP => i j; rewrite !mxE; have lj := ltn_ord j.
    rewrite eq_succ /sg eq_m1 !lift_max (ltn_eqF lj) /= /bump /= add1n eqSS.
    by rewrite val_eqE; case: (i == j).
  by rewrite det_scalar -exprD addnn -muln2 mulnC exprM sqrrN expr1n expr1n.
rewrite mxE eq_succ; move: nj; rewrite -val_eqE /= => /negbTE ->; by rewrite mul0r.
Qed.
Lemma det_gx : \det gx = 1.
Proof.
rewrite /gx; case: leqP => q3; first exact: det_tv.
rewrite det_diag (bigD1 0) //= (bigD1 1) //= big1 => [|i /andP [/negbTE n0 /negbTE n1]]; rewrite !mxE /xdiag ?n0 ?n1 //.
by rewrite /= mulr1 divff // pe0.
Qed.
Lemma det_gw : \det gw = 1.
Proof. by rewrite /gw; case: ifP => _; rewrite ?det_mulmx ?det_tv ?det_cyc ?mulr1. Qed.
Lemma unit_det (A : M) : \det A = 1 -> A \in unitmx. Proof. by rewrite unitmxE => ->; rewrite unitr1. Qed.

Section Closed.
Variable P : M -> Prop.
Hypothesis Pm : forall A B, P A -> P B -> P (A *m B).
Hypothesis Pi : forall A B, A *m B = 1%:M -> P A -> P B.
Hypothesis (Px : P gx) (Pw : P gw).

Lemma P01 a : P (tv 0 1 a).
Proof.
have Pone : P 1%:M by rewrite -(mulmxV (unit_det det_gx)); apply: Pm => //; apply: (Pi (mulmxV (unit_det det_gx))).
move: Px Pw; rewrite /gx /gw; case: leqP => q3 px pw.
  case: (small_field a q3) => ->; [by rewrite tv0 | by [] |].
  by apply: (Pi _ px); rewrite tvN.
have p0 := pe0 q3; have p2 := pe2 q3.
set x := diag_mx _ in px; set w := _ *m _ in pw.
have ux : x \in unitmx by have := unit_det det_gx; rewrite /gx leqNgt q3.
have uw : w \in unitmx by have := unit_det det_gw; rewrite /gw leqNgt q3.
have x0 i : xdiag i != 0 by rewrite /xdiag; case: (i == 0); case: (i == 1); rewrite ?invr_eq0 ?oner_neq0.
pose x' : M := diag_mx (\row_l xdiag (l - 1)); pose r' := xdiag (0 - 1) / xdiag (1 - 1).
have r'1 : 1 - r' != 0.
  rewrite subr_eq0 eq_sym /r' subrr sub0r /xdiag eqxx; have -> : (-1 == 0 :> 'I_d) = false by rewrite eq_sym eq_m1.
  case: (- 1 == 1 :> 'I_d).
    by apply: contra p2 => /eqP e; rewrite -[1]invr1 -e invf_div invrK expr2 mulrC.
  by rewrite div1r invr_eq1; apply: contra p2 => /eqP ->; rewrite expr1n.
pose y : M := tv 0 1 (1 - r') *m x'.
have xt b : x *m tv 0 1 b = tv 0 1 (pe ^+ 2 * b) *m x.
  rewrite diag_tv ?x0 //; congr (tv _ _ _ *m _); congr (_ * _); by rewrite /xdiag eqxx /= invrK expr2.
have x't b : x' *m tv 0 1 b = tv 0 1 (r' * b) *m x' by rewrite diag_tv ?x0.
have py : P y.
  apply: (P_conj Pm Pi pw px uw); rewrite /w -mulmxA cyc_diag -/x' /y.
  rewrite -!mulmxA [x' *m (_ *m _)]mulmxA x't mulr1 !mulmxA; congr (_ *m _ *m _); rewrite tvD // addrNK //.
have uy : y \in unitmx.
  rewrite /y unitmx_mul (unit_det (det_tv _ _)) //= unitmxE det_diag unitfE.
  by apply/prodf_neq0 => i _; rewrite mxE x0.
have pz : P (tv 0 1 ((pe ^+ 2 - 1) * (1 - r'))).
  have e1 : x *m y = tv 0 1 ((pe ^+ 2 - 1) * (1 - r')) *m y *m x.
    have -> : x *m y = tv 0 1 (pe ^+ 2 * (1 - r')) *m (x' *m x).
      by rewrite /y (mulmxA x) xt -mulmxA diag_comm.
    by rewrite /y -!mulmxA (mulmxA (tv 0 1 _) (tv 0 1 _)) tvD //; congr (tv _ _ _ *m _); ring.
  have uxy : y *m x \in unitmx by rewrite unitmx_mul uy ux.
  have -> : tv 0 1 ((pe ^+ 2 - 1) * (1 - r')) = x *m y *m invmx (y *m x).
    by rewrite e1 -(mulmxA _ y x) -mulmxA mulmxV // mulmx1.
  by apply: Pm; [apply: Pm | apply: (Pi (mulmxV uxy)); apply: Pm].
apply: (@squares (fun b => P (tv 0 1 b)) _ _ pz).
- by rewrite mulf_neq0 // subr_eq0.
- by move=> b c hb hc; rewrite -tvD //; apply: Pm.
- by move=> b hb; apply: (Pi _ hb); rewrite tvN.
by move=> b hb; apply: (P_conj Pm Pi px hb ux); apply: xt.
Qed.
Lemma P_sl A : \det A = 1 -> P A.
Proof.
move=> dA; apply: sl_trans => //; apply: (all_tv Pm Pi); [| exact: unit_det det_cyc | exact: P01].
move: Pw; rewrite /gw; case: ifP => // _ pw; have -> : cyc F d' = tv 0 1 (- 1) *m (tv 0 1 1 *m cyc F d').
  by rewrite mulmxA tvD // addNr tv0 mul1mx.
by apply: Pm => //; apply: P01.
Qed.
End Closed.
End FiniteField.

(* ------------------------------------------------------------------------------ lists *)
Section Lists.
Variables (F : finFieldType) (pe : F).
Hypothesis prim : forall x : F, x != 0 -> exists k, x = pe ^+ k.

(* abstract.py:1369-1375: SpecialLinearGroup.iter_mats; np.reshape cuts a vector into rows.  External: the determinant *)
Fixpoint cut (T : Type) (d m : nat) (v : seq T) : seq (seq T) := if m is m'.+1 then take d v :: cut d m' (drop d v) else [::].
Definition sl_iter (el : seq F) (d : nat) : seq (mat F) :=
  [seq A <- [seq cut d d v | v <- product el (d * d)] | \det (mx d d A) == 1].

(* a matrix as a list of rows *)
Definition lmx d (A : 'M[F]_d) : mat F := [seq [seq A i j | j <- fintype.enum 'I_d] | i <- fintype.enum 'I_d].
Lemma ent_lmx d (A : 'M[F]_d) (i j : 'I_d) : ent (lmx A) i j = A i j.
Proof. by rewrite /ent /lmx (nth_map i) ?size_enum_ord // (nth_map j) ?size_enum_ord // !nth_ord_enum. Qed.
Lemma mx_lmx d (A : 'M[F]_d) : mx d d (lmx A) = A. Proof. by apply/matrixP => i j; rewrite mxE ent_lmx. Qed.
Lemma size_lmx d (A : 'M[F]_d) : size (lmx A) = d. Proof. by rewrite size_map size_enum_ord. Qed.
Lemma wf_lmx d (A : 'M[F]_d) : wf d (lmx A). Proof. by apply/allP => r /mapP [i _ ->]; rewrite size_map size_enum_ord. Qed.
Lemma sq_lmx d (A : 'M[F]_d) : A \in unitmx -> square d (lmx A).
Proof. by move=> u; rewrite /square size_lmx eqxx wf_lmx mx_lmx. Qed.
Lemma lmx_mx d (A : mat F) : size A = d -> wf d A -> lmx (mx d d A) = A.
Proof. by move=> sA wA; apply: (@mat_ext _ d d); rewrite ?size_lmx ?wf_lmx // => i j hi hj; rewrite (ent_lmx _ (Ordinal hi) (Ordinal hj)) mxE. Qed.

Variable d' : nat.
Local Notation d := d'.+2.
Local Notation q := #|F|.
Local Notation gens := (sl_gens d q pe).

Lemma mx_gx : mx d d (nth [::] gens 0) = gx pe d'.
Proof.
apply/matrixP => i j; rewrite mxE ent_mkmat // /gx; case: leqP => q3; rewrite !mxE ?mul1r.
  by rewrite -!val_eqE /= [(1 %% _)%N]modn_small.
rewrite /xdiag -!val_eqE /= [(1 %% _)%N]modn_small //; case: (eqVneq (i : nat) 0%N) => [->|ni].
  by rewrite eq_sym; case: (eqVneq (j : nat) 0%N).
case: (eqVneq (i : nat) 1%N) => [->|ni1] /=; last by [].
by rewrite eq_sym; case: (eqVneq (j : nat) 1%N).
Qed.
Lemma mx_gw : mx d d (nth [::] gens 1) = gw F d'.
Proof.
have cycE (i j : 'I_d) : cyc F d' i j = if (i == 0%N :> nat) && (j == d.-1 :> nat) then 1 else - (i == j.+1 :> nat)%:R.
  rewrite mxE eq_succ /sg eq_m1 /=; case: (eqVneq (j : nat) d'.+1) => [->|nj]; rewrite ?andbT ?andbF.
    have -> : (i == d'.+2 :> nat) = false by rewrite ltn_eqF.
    by rewrite oppr0.
  by case: eqP; rewrite ?oppr0.
apply/matrixP => i j; rewrite mxE ent_mkmat // /gw; case: leqP => q3; rewrite /= ?cycE //.
rewrite tvE !mul1r !cycE -!val_eqE /= [(1 %% _)%N]modn_small // eqSS.
case: (eqVneq (i : nat) 0%N) => [->|ni] /=; last by rewrite mul0r addr0.
rewrite mul1r [0%N == j :> nat]eq_sym; case: (eqVneq (j : nat) d'.+1) => [->|nj]; first by rewrite oppr0 addr0.
by case: (eqVneq (j : nat) 0%N); rewrite oppr0 ?add0r.
Qed.
Lemma gens_sq : all (square d) gens.
Proof.
apply/allP => A; rewrite !inE => /orP [] /eqP ->; rewrite /square size_mkseq eqxx wf_mkmat.
  by rewrite (mx_gx : mx d d _ = _); apply: unit_det (det_gx prim d').
by rewrite (mx_gw : mx d d _ = _); apply: unit_det (det_gw F d').
Qed.
Lemma gens_uniq : uniq gens.
Proof.
rewrite /= inE andbT; apply/eqP => /(congr1 (fun A => ent A 1 1)); rewrite !ent_mkmat //=.
case: leqP => q3 /=; rewrite ?add0r ?addr0 ?andbF oppr0 => /eqP; first by rewrite oner_eq0.
by rewrite invr_eq0 (negbTE (pe0 prim q3)).
Qed.

Lemma unit_pow (A : 'M[F]_d) : A \in unitmx -> exists2 k, (0 < k)%N & A ^+ k = 1%:M.
Proof.
move=> uA; pose u : {unit 'M[F]_d} := FinRing.Unit (Phant _) uA; exists #[u]%g; first exact: order_gt0.
have := congr1 (@FinRing.uval _) (expg_order u); by rewrite FinRing.val_unitX.
Qed.
(* the products of the generating matrices are the matrices of determinant one *)
Theorem sl_generated (A : 'M[F]_d) : generated gens A <-> \det A = 1.
Proof.
pose P (A : 'M[F]_d) := generated gens A.
have Pm B C : P B -> P C -> P (B *m C).
  move=> [w [w0 hw ->]] [v [v0 hv ->]]; exists (w ++ v); rewrite word_prod_cat all_cat hw hv; split=> //.
  by case: w w0 {hw}.
have det1 B : P B -> \det B = 1.
  move=> [w [_ hw ->]]; elim: w hw => [|a w IH] /=; first by rewrite det1.
  case/andP => ha hw; rewrite det_mulmx IH // mulr1; case: a ha => [|[|a]] // _.
    by rewrite mx_gx (det_gx prim).
  by rewrite mx_gw det_gw.
split; first exact: det1.
apply: (P_sl prim Pm).
- move=> B C e pB; have uB := unit_det (det1 _ pB); have [[|k] // _ ek] := unit_pow uB.
  have -> : C = B ^+ (k + k).+1.
    have inv : B ^+ (k + k).+1 *m B = 1%:M.
      by rewrite -[LHS]/(B ^+ (k + k).+1 * B) -exprSr -addSn -addnS exprD ek mulr1.
    by rewrite -[RHS]mulmx1 -e mulmxA inv mul1mx.
  elim: (k + k)%N => [|m IH]; first by rewrite expr1.
  by rewrite exprS; apply: Pm.
- by exists [:: 0%N]; rewrite /= mulmx1; split=> //; rewrite -mx_gx.
by exists [:: 1%N]; rewrite /= mulmx1; split=> //; rewrite -mx_gw.
Qed.

(* the permutations of the nonzero vectors *)
Section Linear.
Variable T : seq (vec F).
Hypotheses (uT : uniq T) (hT : forall v, (v \in T) = (size v == d) && (v != nseq d 0)).
Notation perms := [seq sl_perm T A | A <- gens].
Lemma sl_one : sl_perm T (lmx (1%:M : 'M[F]_d)) = pid (size T).
Proof.
have q1 : square d (lmx (1%:M : 'M[F]_d)) by apply: sq_lmx; apply: unitmx1.
apply: (@perm_ext (size T)); rewrite ?valid_pid ?(sl_valid uT hT) // => i hi; rewrite sl_nth // nth_pid //.
have hv := mem_nth [::] hi; have sv : size (nth [::] T i) = d by move: hv; rewrite hT => /andP [/eqP].
have -> : mulmv (lmx (1%:M : 'M[F]_d)) (nth [::] T i) = nth [::] T i; last by rewrite index_uniq.
have := cv_mulmv (size_lmx 1%:M) (wf_lmx 1%:M) sv; rewrite mx_lmx mul1mx => /colP h.
apply: (@eq_from_nth _ 0); rewrite size_mulmv size_lmx // => j hj; by have := h (Ordinal hj); rewrite !mxE.
Qed.
Lemma word_sl w : all (fun i => i < 2)%N w -> word_perm (size T) perms w = sl_perm T (lmx (word_prod d gens w)).
Proof.
have uw v : all (fun i => i < 2)%N v -> word_prod d gens v \in unitmx.
  elim: v => [|a v IH] /=; first by rewrite unitmx1.
  case/andP => ha /IH hv; rewrite unitmx_mul hv andbT; apply: sq_unit; apply: (allP gens_sq); exact: mem_nth.
elim: w => [|a w IH] /=; first by rewrite sl_one.
case/andP => ha hw; have ga : nth [::] gens a \in gens by apply: mem_nth.
have qa := allP gens_sq _ ga; have qw := sq_lmx (uw _ hw).
have -> : nth [::] [:: sl_perm T (nth [::] gens 0); sl_perm T (nth [::] gens 1)] a = sl_perm T (nth [::] gens a).
  by case: a ha {ga qa} => [|[|a]].
rewrite IH // (sl_perm_mul uT hT qw qa); congr (sl_perm T _).
by apply: (@sq_eq _ d); rewrite ?sq_closed ?sq_lmx ?unitmx_mul ?(sq_unit qa) ?uw // sq_mulE // !mx_lmx.
Qed.
Theorem sl_linear p : (exists w, all (fun i => i < 2)%N w /\ p = word_perm (size T) perms w) <->
  (exists A : 'M[F]_d, \det A = 1 /\ p = sl_perm T (lmx A)).
Proof.
split=> [[w [hw ->]] | [A [dA ->]]].
  exists (word_prod d gens w); split; last exact: word_sl.
  by case: w hw => [|a w] hw; [rewrite /= det1 | apply/sl_generated; exists (a :: w)].
by have [w [_ hw ->]] := (sl_generated A).2 dA; exists w; rewrite word_sl.
Qed.
Lemma sl_perm_inj (A B : 'M[F]_d) : \det A = 1 -> \det B = 1 -> sl_perm T (lmx A) = sl_perm T (lmx B) -> A = B.
Proof.
move=> /unit_det /sq_lmx qA /unit_det /sq_lmx qB /(congr1 (sl_lift T d)); rewrite !(sl_lift_perm hT) // => /(congr1 (mx d d)).
by rewrite !mx_lmx.
Qed.
End Linear.
End Lists.

Section Iter.
Variables (F : finFieldType) (el : seq F) (d : nat).
Hypotheses (uel : uniq el) (ael : forall x, x \in el).
Lemma cutP (T : Type) m (v : seq T) : size v = (m * d)%N -> [/\ size (cut d m v) = m, all (fun r => size r == d) (cut d m v) & flatten (cut d m v) = v].
Proof.
elim: m v => [|m IH] v /=; first by move/size0nil ->.
rewrite mulSn => sv; have sd : size (drop d v) = (m * d)%N by rewrite size_drop sv addKn.
have [-> -> ->] := IH _ sd; rewrite size_take sv cat_take_drop; split=> //; rewrite andbT.
by case: ltnP => // h; apply/eqP; move: h; clear; lia.
Qed.
Lemma cut_flatten (T : Type) (A : seq (seq T)) : all (fun r => size r == d) A -> cut d (size A) (flatten A) = A.
Proof.
elim: A => [|r A IH] //= /andP [/eqP sr hA]; rewrite take_cat drop_cat sr ltnn subnn take0 drop0 cats0 IH //.
Qed.
Theorem sl_iterP : uniq (sl_iter el d) /\
  forall A : mat F, (A \in sl_iter el d) = [&& size A == d, wf d A & \det (mx d d A) == 1].
Proof.
have szp v : v \in product el (d * d) -> size v = (d * d)%N by rewrite mem_product => /andP [/eqP].
split.
  apply: filter_uniq; rewrite map_inj_in_uniq ?uniq_product // => u v /szp su /szp sv e.
  by have [_ _ <-] := cutP su; have [_ _ <-] := cutP sv; rewrite e.
move=> A; rewrite mem_filter andbC andbA; congr (_ && _); apply/mapP/andP => [[v /szp sv ->] | [/eqP sA wA]].
  by have [-> h _] := cutP sv.
exists (flatten A); last by have := cut_flatten wA; rewrite sA.
rewrite mem_product; apply/andP; split; last by apply/allP => x _; apply: ael.
apply/eqP; rewrite size_flatten /shape.
have -> : [seq size r | r <- A] = nseq d d by rewrite -{1}sA -(size_map size); apply/all_pred1P; rewrite all_map.
by rewrite sumn_nseq.
Qed.
End Iter.
