(* Chain complexes over fields and group algebras, and generalized surface codes: model of qldpc/objects.py:380-551 and
   qldpc/codes/quantum.py:1525-1564. *)
From mathcomp Require Import all_ssreflect all_algebra zify.
From Verif Require Import LinAlg RowReduce Classical ClassicalProofs Symplectic Quantum QuantumProofs Css CssProofs CssGauge.
From Verif Require Import Product PermGroup Abelian GroupRing RingArray Chain.
Set Implicit Arguments.
Unset Strict Implicit.
Unset Printing Implicit Defensive.
Import GRing.Theory.
Local Open Scope ring_scope.
Notation arr := Chain.arr.

(* ============================================================================== model *)
Section Model.
Variable F : fieldType.

(* arrays over a field: objects.py:464-551, 449-452 and 415-422 *)
Definition f_tensor : seq (arr F) -> seq (arr F) -> option (seq (arr F)) :=
  tensor_product (0 : F) (fun x b => x * b%:R) (fun x k => x * (-1) ^+ k).
Definition f_dual : seq (arr F) -> seq (arr F) := dual (fun x : F => x).
Definition f_validate : seq (arr F) -> bool := validate (fun ps => foldl +%R 0 [seq p.1 * p.2 | p <- ps]) (fun x : F => x != 0).
(* objects.py:380-413: ChainComplex(ops); ValueError (None) when the operators do not compose to zero.
   Simplification: all operators are over the same field *)
Definition f_chain (c : seq (arr F)) : option (seq (arr F)) := if f_validate c then Some c else None.

(* arrays over a group algebra.  Simplification: the zero blocks, which hold zeros of the field, hold the zero of the algebra *)
Notation rmem := (rmem F).
Definition r_tensor : seq (arr rmem) -> seq (arr rmem) -> option (seq (arr rmem)) :=
  tensor_product (rm_zero F) (fun x b => rm_scale x (b : nat)) (fun x k => rm_scale x ((-1) ^+ k)).
Definition r_dual : seq (arr rmem) -> seq (arr rmem) := dual (@rm_T F).
Definition r_mulsum (ps : seq (rmem * rmem)) : rmem :=
  if [seq rm_mul p.1 p.2 | p <- ps] is x :: xs then foldl (@rm_add F) x xs else [::].
Definition r_validate : seq (arr rmem) -> bool := validate r_mulsum (@rm_bool F).

(* classical.py:33-58: the parity check matrices of RepetitionCode and RingCode *)
Definition rep_arr (n : nat) : arr F := Arr n.-1 n (fun i j => if j == i.+1 then - 1 else if j == i then 1 else 0).
Definition ring_arr (n : nat) : arr F := Arr n n (fun i j => if j == (i.+1 %% n)%N then - 1 else if j == i then 1 else 0).
Definition arr_T (M : arr F) : arr F := Arr (nc M) (nr M) (fun i j => at2 M j i).
Definition arr_mat (M : arr F) : mat F := mkmat (nr M) (nc M) (at2 M).

(* quantum.py:1552-1559: the loop *)
Fixpoint surface_chain (M : arr F) (k : nat) : option (seq (arr F)) :=
  if k is k'.+1 then
    if surface_chain M k' is Some c then
      if f_tensor c [:: arr_T M] is Some c' then f_chain (take 2 c') else None
    else None
  else f_chain [:: M].
(* quantum.py:1525-1564: GeneralizedSurfaceCode(size, dim, field, periodic); RepetitionCode(0) is an array of shape (-1, 0),
   which is an error *)
Definition surface_code (size dim : nat) (periodic : bool) : option (csscode F) :=
  if (dim < 2)%N then None else
  if (size == 0%N) && ~~ periodic then None else
  if surface_chain (if periodic then ring_arr size else rep_arr size) dim.-1 is Some c then
    Some (mkcss (nc (op 0 c 1)) (arr_mat (op 0 c 1)) (arr_mat (arr_T (op 0 c 2))) None)
  else None.
End Model.

(* ============================================================================= proofs *)
Lemma all_entries_true (T : Type) (P : T -> Prop) (c : seq (arr T)) : (forall x, P x) -> all_entries P c.
Proof. by move=> h; elim: c => //= M c IH; split. Qed.
Lemma is_complex_take (T : Type) (R : ringType) (phi : T -> R) (c : seq (arr T)) k : is_complex phi c -> is_complex phi (take k c).
Proof. by elim: c k => [|M [|N c] IH] [|[|k]] //= [h1 h2]; split=> //; apply: (IH k.+1). Qed.

Section Field.
Variable F : fieldType.
Implicit Types c a b : seq (arr F).
Notation fid := (fun x : F => x).

Lemma f_validateP c : f_validate c <-> is_complex fid c.
Proof.
apply: (@validateP _ _ fid (fun _ => True)); last exact: all_entries_true.
move=> ps _; congr (_ != _); elim/last_ind: ps => [|ps p IH]; first by rewrite big_nil.
by rewrite -!cats1 map_cat foldl_cat IH big_cat /= big_seq1.
Qed.

Theorem f_tensorP a b : (0 < size a)%N -> (0 < size b)%N -> is_complex fid a -> is_complex fid b ->
  exists2 c, f_tensor a b = Some c & size c = (size a + size b)%N /\ is_complex fid c.
Proof.
move=> a0 b0 ca cb; apply: (@tensor_complex _ _ _ _ _ fid (fun _ => True)) => //.
- by move=> x k _; rewrite mulrC.
- exact: all_entries_true.
- exact: all_entries_true.
- by apply: all_entries_true => x; apply: all_entries_true => y; apply: mulrC.
Qed.

Notation z0 := (GRing.zero F).
Theorem f_tensor_entry a b c k i j i' j' u v u' v' : (0 < size a)%N -> (0 < size b)%N -> is_complex fid a -> is_complex fid b ->
  f_tensor a b = Some c -> (0 < k <= size a + size b)%N ->
  (i <= size a)%N -> (j <= size b)%N -> (i + j)%N = k -> (i' <= size a)%N -> (j' <= size b)%N -> (i' + j')%N = k.-1 ->
  (u < dim z0 a i)%N -> (v < dim z0 b j)%N -> (u' < dim z0 a i')%N -> (v' < dim z0 b j')%N ->
  let M := nth (zeros 0 0 0) c k.-1 in
  let row := (offset z0 a b k.-1 i' + (u' * dim z0 b j' + v'))%N in
  let col := (offset z0 a b k i + (u * dim z0 b j + v))%N in
  [/\ (row < nr M)%N, (col < nc M)%N &
    at2 M row col = (if (i == i'.+1) && (j == j') then at2 (op z0 a i) u' u * (v' == v)%:R
                     else if (i == i') && (j == j'.+1) then (-1) ^+ i * (at2 (op z0 b j) v' v * (u' == u)%:R) else 0)].
Proof.
move=> a0 b0 ca cb e hk hi hj hij hi' hj' hij' hu hv hu' hv' M row col.
have h1 (x : F) (t : bool) : True -> fid (x * t%:R) = fid x * t%:R by [].
have h2 (x : F) (k0 : nat) : True -> fid (x * (-1) ^+ k0) = (-1) ^+ k0 * fid x by rewrite mulrC.
by have [] := @tensor_entry F 0 (fun (x : F) (t : bool) => x * t%:R) (fun x k => x * (-1) ^+ k) F fid (fun _ => True) erefl h1
  (fun _ _ _ => I) h2 a b a0 b0 ca cb (all_entries_true a (fun _ => I)) (all_entries_true b (fun _ => I))
  c k i j i' j' u v u' v' e hk hi hj hij hi' hj' hij' hu hv hu' hv'.
Qed.

Theorem f_dualP c : is_complex fid c -> is_complex fid (f_dual c).
Proof.
apply: (@dual_complex _ fid _ fid fid (fun _ => True)) => //; last exact: all_entries_true.
by move=> x y; apply: mulrC.
Qed.

Lemma arr_matP (M : arr F) : [/\ size (arr_mat M) = nr M, wf (nc M) (arr_mat M) &
  mx (nr M) (nc M) (arr_mat M) = \matrix_(i, j) at2 M i j].
Proof. by rewrite size_mkmat wf_mkmat mx_mkmat. Qed.

Lemma composes_mul (M N : arr F) : composes fid M N -> sp (nc M) (arr_mat M) *m (sp (nc M) (arr_mat (arr_T N)))^T = 0.
Proof.
move=> [e h]; have [s1 w1 e1] := arr_matP M; have [s2 w2 e2] := arr_matP (arr_T N).
apply: (sp_mul0 s1 s2); rewrite e1.
have -> : mx (nr (arr_T N)) (nc M) (arr_mat (arr_T N)) = \matrix_(i, j) at2 N j i.
  by apply/matrixP => i j; rewrite !mxE ent_mkmat //= -e.
apply/matrixP => i j; rewrite !mxE -[RHS](h i j (ltn_ord i) (ltn_ord j)).
by apply: eq_bigr => m _; rewrite !mxE.
Qed.

Lemma surface_chainP (M : arr F) k : exists c, [/\ surface_chain M k = Some c, is_complex fid c & size c = minn 2 k.+1].
Proof.
elim: k => [|k [c [e cc sc]]] /=.
  by exists [:: M]; rewrite /f_chain; have -> : f_validate [:: M] by exact/f_validateP.
rewrite e; have [||| |c' -> [s' h']] := @f_tensorP c [:: arr_T M] => //; first by rewrite sc; lia.
exists (take 2 c'); rewrite /f_chain; have t := is_complex_take 2 h'.
by have -> : f_validate (take 2 c') by [apply/f_validateP]; rewrite size_take s' sc; split=> //; case: (k) => [|[|m]].
Qed.

Theorem surface_code_ok size dim periodic : (1 < dim)%N -> (0 < size)%N || periodic -> exists c : csscode F, [/\ surface_code F size dim periodic = Some c, c_ok c & c_sub c = false].
Proof.
move=> hd hs; rewrite /surface_code ltnNge hd /= -[_ && _]negbK negb_and negbK -lt0n hs /=; set M := if periodic then _ else _.
have [c [-> cc sc]] := surface_chainP M dim.-1.
move: cc sc; case: c => [|M1 [|M2 c]] /=; do ?lia; move=> [h _] _.
have := composes_mul h; case: (h) => e _.
have [s1 w1 _] := arr_matP M1; have [s2 w2 _] := arr_matP (arr_T M2); rewrite -[nc (arr_T M2)]/(nr M2) -e in w2.
move=> h0; eexists; split; [by [] | exact: c_ok_mk | exact/(css_manyP w1 w2)].
Qed.
End Field.

Section Ring.
Variables (F : fieldType) (g0 : PermGroup.perm) (G' : group) (n : nat).
Notation G := (g0 :: G').
Hypothesis gG : grp_ok n G.
Notation rmem := (rmem F).
Implicit Types c a b : seq (arr rmem).
Notation ok := (fun x : rmem => rm_ok G x).
Notation N := (size G').+1.

(* the faithful image of an element of the algebra *)
Definition rphi (x : rmem) : 'M[F]_N := mx N N (rm_lift N (regular_lift F G) x).

Lemma rphi_scale x (k : int) : ok x -> rphi (rm_scale x k) = k%:~R *: rphi x.
Proof. exact: (lift_scale gG (regr F gG)). Qed.

Lemma rphi_zero : rphi [::] = 0.
Proof. by apply/matrixP => i j; rewrite !mxE ent_zerol. Qed.

Lemma r_mulsumP ps : (forall p, List.In p ps -> ok p.1 /\ ok p.2) ->
  ok (r_mulsum ps) /\ rphi (r_mulsum ps) = \sum_(p <- ps) rphi p.1 * rphi p.2.
Proof.
have h x qs : ok x -> (forall p, List.In p qs -> ok p.1 /\ ok p.2) ->
    ok (foldl (@rm_add F) x [seq rm_mul p.1 p.2 | p <- qs]) /\
    rphi (foldl (@rm_add F) x [seq rm_mul p.1 p.2 | p <- qs]) = rphi x + \sum_(p <- qs) rphi p.1 * rphi p.2.
  elim: qs x => [|q qs IH] x ox oq /=; first by rewrite big_nil addr0.
  have [o1 o2] := oq q (or_introl erefl); have om : ok (rm_mul q.1 q.2) by apply: (ok_mul gG).
  have [|h1 h2] := IH _ (ok_add ox om); first by move=> p hp; apply: oq; right.
  by split=> //; rewrite h2 big_cons addrA; congr (_ + _); rewrite /rphi (lift_add gG (regr F gG)) // (lift_mul gG (regr F gG)).
case: ps => [|q qs] hq; first by rewrite big_nil; split=> //; apply: rphi_zero.
have [o1 o2] := hq q (or_introl erefl); have om : ok (rm_mul q.1 q.2) by apply: (ok_mul gG).
have [|h1 h2] := h _ qs om; first by move=> p hp; apply: hq; right.
by split=> //; rewrite /r_mulsum /= h2 big_cons; congr (_ + _); rewrite /rphi (lift_mul gG (regr F gG)).
Qed.

Lemma rphi_bool x : ok x -> rm_bool x = (rphi x != 0).
Proof.
move=> ox; apply/idP/idP => [/(rm_boolP ox) [g gg nz] | nz].
  apply: contra nz => /eqP e; have : rm_eq x [::] by apply: (reg_faithful gG) => //; rewrite -[LHS]/(rphi x) e -[RHS]/(rphi [::]) rphi_zero.
  by move/(rm_eqP ox (ok_nil _ _)) => /(_ g gg) ->.
apply/(rm_boolP ox); case e: (has (fun g => coef x g != 0) G).
  by case/hasP: e => g gg nz'; exists g.
exfalso; move/negP: nz; apply; apply/eqP.
have -> : rphi x = rphi [::]; last exact: rphi_zero.
apply: (lift_ext gG (regr F gG)) => // g gg; move/hasPn: e => /(_ g gg); rewrite negbK => /eqP ->.
by [].
Qed.

Lemma r_validateP c : all_entries ok c -> r_validate c <-> is_complex rphi c.
Proof.
apply: validateP => ps /r_mulsumP [o e]; by rewrite rphi_bool // e.
Qed.

Theorem r_tensorP a b : {in G &, forall p q, pmul p q = pmul q p} -> (0 < size a)%N -> (0 < size b)%N ->
  all_entries ok a -> all_entries ok b -> r_validate a -> r_validate b ->
  exists2 c, r_tensor a b = Some c & [/\ size c = (size a + size b)%N, all_entries ok c & r_validate c].
Proof.
move=> cm a0 b0 oa ob /(r_validateP oa) ca /(r_validateP ob) cb.
have z0 : rphi (rm_zero F) = 0 by apply: rphi_zero.
have sc x (b1 : bool) : ok x -> rphi (rm_scale x (b1 : nat)) = rphi x * b1%:R.
  by move=> ox; rewrite rphi_scale // -pmulrn scaler_nat mulr_natr.
have sg x k : ok x -> rphi (rm_scale x ((-1) ^+ k)) = (-1) ^+ k * rphi x.
  move=> ox; rewrite rphi_scale // -signr_odd -[in RHS]signr_odd.
  by case: (odd k); rewrite ?expr0 ?expr1 ?scale1r ?mul1r // mulN1r mulrN1z scaleN1r.
have os x (k : int) : ok x -> ok (rm_scale x k) by apply: ok_scale.
have cm' : all_entries (fun x => all_entries (fun y => rphi x * rphi y = rphi y * rphi x) b) a.
  elim: a oa {ca a0} => //= M a IH [oM oa]; split; last exact: IH.
  move=> i j hi hj; have ox := oM i j hi hj; elim: b ob {cb b0 IH} => //= M' b IH [oM' ob]; split; last exact: IH.
  by move=> k l hk hl; apply: (lift_comm gG (regr F gG) cm) => //; apply: oM'.
have ob' x (b1 : bool) : ok x -> ok (rm_scale x (b1 : nat)) by apply: os.
have [c e [s h]] := tensor_complex z0 sc ob' sg a0 b0 ca cb oa ob cm'; exists c => //.
have oc : all_entries ok c by apply: (tensor_ok ob' a0 b0 ca cb oa ob _ _ e) => // x k; apply: os.
by split=> //; apply/r_validateP.
Qed.

Theorem r_dualP c : all_entries ok c -> r_validate c -> all_entries ok (r_dual c) /\ r_validate (r_dual c).
Proof.
move=> oc /(r_validateP oc) h.
have od : all_entries ok (r_dual c).
  apply: dual_entries; elim: c oc {h} => //= M c IH [oM oc]; split; last exact: IH.
  by move=> i j hi hj; apply: (ok_T gG); apply: oM.
split=> //; apply/(r_validateP od).
apply: (@dual_complex _ _ _ rphi trmx ok) => //.
- by move=> x ox; apply: (lift_T gG (regr F gG)).
- exact: trmx0.
- by move=> x y; apply: raddfD.
- by move=> x y; apply: trmx_mul.
Qed.
End Ring.
