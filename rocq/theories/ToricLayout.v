(* Toric layouts of bivariate bicycle codes: model of qldpc/codes/quantum.py:466-580. *)
From mathcomp Require Import all_ssreflect all_algebra zify ring.
From Verif Require Import LinAlg RowReduce Kron Classical Quantum QuantumProofs.
From Verif Require Import Css CssProofs Product PermGroup Abelian GroupRing RingArray BBLayout QCPoly QuasiCyclic.
Set Implicit Arguments.
Unset Strict Implicit.
Unset Printing Implicit Defensive.
Import GRing.Theory Num.Theory.
Local Open Scope ring_scope.
Notation vec2 := (int * int)%type.

(* ============================================================================== model *)
Section Model.
Variables ra rb : nat.

(* quantum.py:543-546: as_exponent_vector, for the exponents of a monomial (sympy leaves exponents 0 out) *)
Definition evec (es : seq int) : vec2 := (nth 0 es 0, nth 0 es 1).
(* sympy (external): the quotient v / w of two monomials, by their exponents *)
Definition quot (v w : vec2) : vec2 := (v.1 - w.1, v.2 - w.2).
(* quantum.py:496-498: the monomials of a polynomial, without their coefficients *)
Definition monomials (p : seq term) : seq vec2 := [seq evec t.2 | t <- args 2 p].
(* itertools.combinations(s, 2) (external) *)
Fixpoint combs2 (T : Type) (s : seq T) : seq (T * T) :=
  if s is x :: s' then [seq (x, y) | y <- s'] ++ combs2 s' else [::].
(* quantum.py:501-511: the collections of monomials *)
Definition toric_params (pa pb : seq term) : seq (vec2 * vec2 * vec2 * vec2) :=
  flatten [seq (let: (a1, a2) := a in let: (b1, b2) := b in
    if is_valid_basis ra rb (quot a2 a1) (quot b2 b1)
    then [:: (a1, a2, b1, b2); (a1, a2, b2, b1); (a2, a1, b1, b2); (a2, a1, b2, b1)] else [::])
    | a <- combs2 (monomials pa), b <- combs2 (monomials pb)].

(* quantum.py:522-524: (poly / monomial).expand() *)
Definition shift_poly (m : vec2) (p : seq term) : seq term :=
  [seq (t.1, [:: nth 0 t.2 0 - m.1; nth 0 t.2 1 - m.2]) | t <- p].

(* quantum.py:548-580: change_poly_basis of one polynomial; None is the ValueError of modular_inverse.  The terms of the
   result are not merged: see new_poly_uniq below *)
Definition subst_exps (x y : nat * nat) (e : vec2) : vec2 :=
  (e.1 * x.1%:Z + e.2 * y.1%:Z, e.1 * x.2%:Z + e.2 * y.2%:Z).
Definition change_poly_basis (g h : vec2) (p : seq term) : option (seq term) :=
  match modular_inverse ra rb g h 1 0, modular_inverse ra rb g h 0 1 with
  | Some x, Some y =>
      Some (canonical_form [:: get_order ra rb g; get_order ra rb h]
        [seq (let e := subst_exps x y (evec t.2) in (t.1, [:: e.1; e.2])) | t <- p])
  | _, _ => None
  end.

Definition tdata : Type := (nat * nat) * (seq term * seq term).
(* quantum.py:514-536: the generating data made of four monomials *)
Definition toric_entry (pa pb : seq term) (q : vec2 * vec2 * vec2 * vec2) : option tdata :=
  let: (a1, a2, b1, b2) := q in
  let g := quot a2 a1 in let h := quot b2 b1 in
  let sa := shift_poly a1 pa in let sb := shift_poly b1 pb in
  let: (g', h', sa', sb') :=
    if (get_order ra rb g < get_order ra rb h)%N then (h, g, sb, sa) else (g, h, sa, sb) in
  match change_poly_basis g' h' sa', change_poly_basis g' h' sb' with
  | Some na, Some nb => Some ((get_order ra rb g', get_order ra rb h'), (na, nb))
  | _, _ => None
  end.

(* quantum.py:539: equality of generating data; sympy expressions are equal when their terms are *)
Definition same_data (d e : tdata) : bool := [&& d.1 == e.1, perm_eq d.2.1 e.2.1 & perm_eq d.2.2 e.2.2].
Definition add_data (pa pb : seq term) (acc : option (seq tdata)) (q : vec2 * vec2 * vec2 * vec2) : option (seq tdata) :=
  match acc, toric_entry pa pb q with
  | Some l, Some d => Some (if has (same_data d) l then l else rcons l d)
  | _, _ => None
  end.
(* quantum.py:466-541: get_equivalent_toric_layout_code_data; `connected` is nx.is_weakly_connected(self.graph)
   (external), None is a ValueError *)
Definition toric_data (connected : bool) (pa pb : seq term) : option (seq tdata) :=
  if ~~ connected then Some [::] else foldl (add_data pa pb) (Some [::]) (toric_params pa pb).
End Model.

(* quantum.py:212-232, 377-395: the code BBCode(orders, poly_a, poly_b) when the symbols are not sorted: the orders are
   assigned to the sorted symbols, the exponents of the polynomials are in the order of the unsorted ones *)
Definition swap_symbols (p : seq term) : seq term := [seq (t.1, [:: nth 0 t.2 1; nth 0 t.2 0]) | t <- p].

(* ====================================================================== specification *)
(* f permutes the numbers below n *)
Definition bij_on (n : nat) (f : nat -> nat) : Prop :=
  (forall i, (i < n)%N -> (f i < n)%N) /\ (forall i j, (i < n)%N -> (j < n)%N -> f i = f j -> i = j).
(* one code is obtained from the other by a permutation of the qudits, of the X-type and of the Z-type checks; all Z-type
   checks may be multiplied by -1 (which is 1 for qubits) *)
Definition perm_equiv (F : fieldType) (c c' : csscode F) : Prop :=
  [/\ c_n c' = c_n c, size (c_x c') = size (c_x c), size (c_z c') = size (c_z c) &
   exists fx fz pi s, [/\ bij_on (size (c_x c)) fx, bij_on (size (c_z c)) fz, bij_on (c_n c) pi, s = 1 \/ s = -1 &
     forall i j, (j < c_n c)%N ->
       ((i < size (c_x c))%N -> ent (c_x c') (fx i) (pi j) = ent (c_x c) i j) /\
       ((i < size (c_z c))%N -> ent (c_z c') (fz i) (pi j) = s * ent (c_z c) i j)]].

(* the plaquette with a given number, and the number of the plaquette at a point of the plane *)
Definition pos (rb i : nat) : vec2 := ((i %/ rb)%N%:Z, (i %% rb)%N%:Z).
Definition idx (ra rb : nat) (p : vec2) : nat := (`|(p.1 %% ra)%Z| * rb + `|(p.2 %% rb)%Z|)%N.
Definition sameb (ra rb : nat) (p q : vec2) : bool := ((p.1 == q.1 %[mod ra]) && (p.2 == q.2 %[mod rb]))%Z.
(* the sum of the coefficients at a displacement *)
Definition pcoef (F : fieldType) (fld : int -> F) (ra rb : nat) (p : seq term) (v : vec2) : F :=
  \sum_(t <- p | sameb ra rb (evec t.2) v) fld t.1.

(* ============================================================================= proofs *)
Section Torus.
Variables ra rb : nat.
Hypotheses (ra0 : (0 < ra)%N) (rb0 : (0 < rb)%N).
Notation D := (ra * rb)%N.

Lemma samebP p q : reflect (same ra rb p q) (sameb ra rb p q).
Proof. by apply: (iffP andP) => -[] h1 h2; split; apply/eqP. Qed.

Lemma absz_lt (r : nat) (x : int) : (0 < r)%N -> (`|(x %% r)%Z| < r)%N.
Proof. by move=> r0; rewrite -ltz_nat gez0_abs ?modz_ge0 -?lt0n // ltz_pmod. Qed.
Lemma absz_modE (r : nat) (x : int) : (0 < r)%N -> `|(x %% r)%Z|%N%:Z = (x %% r)%Z.
Proof. by move=> r0; rewrite gez0_abs ?modz_ge0 -?lt0n. Qed.

Lemma idx_lt p : (idx ra rb p < D)%N.
Proof.
rewrite /idx; have h1 := absz_lt p.1 ra0; have h2 := absz_lt p.2 rb0.
by apply: (@leq_trans (`|(p.1 %% ra)%Z|.+1 * rb)%N); [rewrite mulSn addnC ltn_add2r | rewrite leq_mul2r h1 orbT].
Qed.
Lemma pos_idx p : same ra rb (pos rb (idx ra rb p)) p.
Proof.
have h2 := absz_lt p.2 rb0; rewrite /pos /idx divnMDl // (divn_small h2) addn0 modnMDl (modn_small h2).
by split=> /=; rewrite absz_modE // modz_mod.
Qed.
Lemma idx_pos i : (i < D)%N -> idx ra rb (pos rb i) = i.
Proof.
move=> hi; rewrite /idx /pos /= !modz_nat !absz_nat modn_mod modn_small ?ltn_divLR //.
by rewrite -divn_eq.
Qed.
Lemma idx_same p q : same ra rb p q -> idx ra rb p = idx ra rb q.
Proof. by rewrite /idx => -[-> ->]. Qed.
Lemma same_idx p q : idx ra rb p = idx ra rb q -> same ra rb p q.
Proof.
move=> e; have [h1 h2] := pos_idx p; have [h3 h4] := pos_idx q.
by rewrite -e in h3 h4; split; [rewrite -h1 h3 | rewrite -h2 h4].
Qed.
Lemma same_refl p : same ra rb p p. Proof. by []. Qed.
Lemma same_sym p q : same ra rb p q -> same ra rb q p. Proof. by case=> h1 h2; split. Qed.
Lemma same_sub p q p' q' : same ra rb p p' -> same ra rb q q' -> same ra rb (quot p q) (quot p' q').
Proof.
move=> [h1 h2] [h3 h4]; split=> /=.
  by rewrite -(modzDml p.1) h1 modzDml -(modzDmr _ (- q.1)) -modzNm h3 modzNm modzDmr.
by rewrite -(modzDml p.2) h2 modzDml -(modzDmr _ (- q.2)) -modzNm h4 modzNm modzDmr.
Qed.
Lemma sameb_congr p q p' q' : same ra rb p p' -> same ra rb q q' -> sameb ra rb p q = sameb ra rb p' q'.
Proof. by rewrite /sameb => -[-> ->] [-> ->]. Qed.
End Torus.

Section Entries.
Variables (F : fieldType) (fld : int -> F) (ra rb : nat).
Hypotheses (ra0 : (0 < ra)%N) (rb0 : (0 < rb)%N) (f0 : fld 0 = 0).
Notation D := (ra * rb)%N.
Notation os := [:: ra; rb].

Lemma os_pos : all (ltn 0%N) os. Proof. by rewrite /= ra0 rb0. Qed.
Lemma dimE : qc_dim os = D. Proof. by rewrite /qc_dim /= mul1n. Qed.
Lemma size_exps2 : size (exps os) = D. Proof. by rewrite size_exps /= muln1. Qed.

Lemma nth_exps2 i : (i < D)%N -> nth [::] (exps os) i = [:: (i %/ rb)%N; (i %% rb)%N].
Proof.
move=> hi; have e1 : size (exps [:: rb]) = rb by rewrite size_exps /= muln1.
rewrite nth_exps ?e1 //; congr (_ :: _); rewrite nth_exps ?e1 /=; last by rewrite muln1 ltn_mod.
by rewrite divn1 modn1.
Qed.

Theorem qc_entry p i j : (i < D)%N -> (j < D)%N ->
  ent (qc_mat fld os p) i j = pcoef fld ra rb p (quot (pos rb j) (pos rb i)).
Proof.
move=> hi hj; have eD := qc_dimE os; have gG := ab_group_ok os_pos.
have [sL wL _] := lift_ok gG (ab_lift_rep F os_pos isT) (ok_eval fld os_pos p).
have hi' : (i < qc_dim os)%N by rewrite dimE.
have hj' : (j < qc_dim os)%N by rewrite dimE.
rewrite /qc_mat ent_trl ?sL //.
have -> : rm_lift (qc_dim os) (ab_lift F os) (qc_eval fld os p) = rm_lift (size (ab_group os)) (regular_lift F (ab_group os)) (qc_eval fld os p).
  rewrite -eD /rm_lift; congr (foldl _ _ _); apply/eq_in_map => t; rewrite mem_filter => /andP [_ tx].
  by rewrite (ab_lift_regular _ os_pos) // (rm_okP (ok_eval fld os_pos p)).
rewrite (reg_entry gG (ok_eval fld os_pos p)) -?eD //.
rewrite /ab_group !(nth_map [::]) ?size_exps2 // !nth_exps2 // (ab_inv os_pos) (pmul_ab os_pos) (ab_norm os_pos).
set e := norm_exp _ _; have he : e \in exps os by apply: norm_in; exact: os_pos.
rewrite (coef_eval _ _ f0 he) /pcoef //; last exact: os_pos.
apply: eq_bigl => t; rewrite /is_at /sameb /= andbT.
have key r (x y : nat) : (0 < r)%N -> (((x + (r - y %% r))%N %% r)%N%:Z = (x%:Z - y%:Z) %[mod r])%Z.
  move=> r0; have h : (y %% r < r)%N by rewrite ltn_mod.
  rewrite -modz_nat modz_mod PoszD -subzn; last exact: ltnW.
  rewrite addrC -addrA -modzDml modzz add0r addrC -modz_nat -[in RHS]modzDmr -[in RHS]modzNm.
  by rewrite modzDmr.
by rewrite /e /norm_exp /=  !key.
Qed.
End Entries.

(* ---- a change of basis is an isomorphism of the tori *)
Section Change.
Variables (ra rb : nat) (g h : vec2).
Hypotheses (ra0 : (0 < ra)%N) (rb0 : (0 < rb)%N) (ok : is_valid_basis ra rb g h).
Notation og := (get_order ra rb g).
Notation oh := (get_order ra rb h).
Variables (x y : nat * nat).
Hypotheses (ex : modular_inverse ra rb g h 1 0 = Some x) (ey : modular_inverse ra rb g h 0 1 = Some y).
Notation L := (subst_exps x y).

Lemma og0 : (0 < og)%N. Proof. exact: get_order_gt0. Qed.
Lemma oh0 : (0 < oh)%N. Proof. exact: get_order_gt0. Qed.
Lemma basis_orders : (og * oh)%N = (ra * rb)%N. Proof. by case/andP: ok => /eqP. Qed.

Lemma comb_L e : same ra rb (comb (L e).1 (L e).2 g h) e.
Proof.
have [_ _ [/= x1 x2]] := modular_inverse_some ra0 rb0 ex; have [_ _ [/= y1 y2]] := modular_inverse_some ra0 rb0 ey.
have key (r : nat) (g1 h1 : int) (c d : int) : (x.1%:Z * g1 + x.2%:Z * h1 = c %[mod r])%Z -> (y.1%:Z * g1 + y.2%:Z * h1 = d %[mod r])%Z ->
    ((e.1 * x.1%:Z + e.2 * y.1%:Z) * g1 + (e.1 * x.2%:Z + e.2 * y.2%:Z) * h1 = e.1 * c + e.2 * d %[mod r])%Z.
  move=> q1 q2; have -> : (e.1 * x.1%:Z + e.2 * y.1%:Z) * g1 + (e.1 * x.2%:Z + e.2 * y.2%:Z) * h1 =
    e.1 * (x.1%:Z * g1 + x.2%:Z * h1) + e.2 * (y.1%:Z * g1 + y.2%:Z * h1) by ring.
  by rewrite -modzDm -modzMmr q1 modzMmr -[(e.2 * _ %% _)%Z]modzMmr q2 modzMmr modzDm.
by split; rewrite /= (key _ _ _ _ _ x1 y1) || rewrite /= (key _ _ _ _ _ x2 y2); rewrite mulr1 mulr0 ?addr0 ?add0r.
Qed.

Lemma comb_mod' (a b : int) : same ra rb (comb (`|(a %% og)%Z|%N%:Z) (`|(b %% oh)%Z|%N%:Z) g h) (comb a b g h).
Proof. by rewrite !absz_modE ?og0 ?oh0 //; apply: comb_mod. Qed.

(* coefficients are determined modulo the orders *)
Lemma comb_inj p q : same ra rb (comb p.1 p.2 g h) (comb q.1 q.2 g h) -> same og oh p q.
Proof.
move=> hs; have [c [_ _ _ un]] := (proj1 (is_valid_basisP ra0 rb0 _ _) ok) (comb q.1 q.2 g h).
have cp := un (`|(p.1 %% og)%Z|%N, `|(p.2 %% oh)%Z|%N) (absz_lt _ og0) (absz_lt _ oh0) (same_trans (comb_mod' _ _) hs).
have cq := un (`|(q.1 %% og)%Z|%N, `|(q.2 %% oh)%Z|%N) (absz_lt _ og0) (absz_lt _ oh0) (comb_mod' _ _).
rewrite -cq in cp; case: cp => e1 e2; split.
  by rewrite -(absz_modE _ og0) e1 absz_modE // og0.
by rewrite -(absz_modE _ oh0) e2 absz_modE // oh0.
Qed.

Lemma L_same p q : same ra rb p q <-> same og oh (L p) (L q).
Proof.
split=> hs.
  by apply: comb_inj; apply: same_trans (comb_L p) (same_trans hs (same_sym (comb_L q))).
have h2 : same ra rb (comb (L p).1 (L p).2 g h) (comb (L q).1 (L q).2 g h).
  apply: same_trans (same_sym (comb_mod' _ _)) _.
  by case: hs => -> ->; apply: comb_mod'.
exact: same_trans (same_sym (comb_L p)) (same_trans h2 (comb_L q)).
Qed.
Lemma L_quot p q : L (quot p q) = quot (L p) (L q).
Proof. by rewrite /subst_exps /quot /=; congr pair; ring. Qed.
Lemma L_g : same og oh (L g) (1, 0).
Proof.
apply: comb_inj; apply: same_trans (comb_L g) _; rewrite /comb /= !mul1r !mul0r !addr0.
by rewrite -surjective_pairing.
Qed.
Lemma L_h : same og oh (L h) (0, 1).
Proof.
apply: comb_inj; apply: same_trans (comb_L h) _; rewrite /comb /= !mul1r !mul0r !add0r.
by rewrite -surjective_pairing.
Qed.
Lemma L_0 : L (0, 0) = (0, 0). Proof. by rewrite /subst_exps /= !mul0r. Qed.

Definition subst_poly (p : seq term) : seq term := [seq (let e := L (evec t.2) in (t.1, [:: e.1; e.2])) | t <- p].
Lemma change_polyE p : change_poly_basis ra rb g h p = Some (canonical_form [:: og; oh] (subst_poly p)).
Proof. by rewrite /change_poly_basis ex ey. Qed.
Lemma canon_many os p : (1 < size p)%N -> canonical_form os p = map (canon_term os) p.
Proof. by rewrite /canonical_form; case: p => [|t [|u p]]. Qed.

Lemma canon2 (t : term) : canon_term [:: og; oh] t = (t.1 ^+ 2, [:: canon_exp og (nth 0 t.2 0); canon_exp oh (nth 0 t.2 1)]).
Proof. by rewrite canon_termE. Qed.

Definition new_poly (m : vec2) (p : seq term) : seq term := map (canon_term [:: og; oh]) (subst_poly (shift_poly m p)).
Lemma new_polyE m p : (1 < size p)%N -> change_poly_basis ra rb g h (shift_poly m p) = Some (new_poly m p).
Proof. by move=> sp; rewrite change_polyE canon_many // !size_map. Qed.

Lemma new_term_at m (t : term) v :
  sameb og oh (evec (canon_term [:: og; oh] (t.1, [:: (L (quot (evec t.2) m)).1; (L (quot (evec t.2) m)).2])).2) v =
  sameb og oh (L (quot (evec t.2) m)) v.
Proof. by rewrite canon2; apply: sameb_congr => //; split=> /=; rewrite canon_exp_mod. Qed.

Section Fld.
Variables (F : fieldType) (fld : int -> F).
Hypothesis f0 : fld 0 = 0.
Lemma pcoef_new m p w : (forall t, t \in p -> fld (t.1 ^+ 2) = fld t.1) ->
  pcoef fld og oh (new_poly m p) (L w) = pcoef fld ra rb p ((w.1 + m.1, w.2 + m.2)).
Proof.
move=> hc; rewrite /pcoef /new_poly /subst_poly /shift_poly !big_map big_seq_cond [RHS]big_seq_cond.
have e (t : term) : sameb og oh (evec (canon_term [:: og; oh] (t.1, [:: (L (quot (evec t.2) m)).1; (L (quot (evec t.2) m)).2])).2) (L w) =
    sameb ra rb (evec t.2) (w.1 + m.1, w.2 + m.2).
  rewrite new_term_at; apply/samebP/samebP => [/L_same hs | hs].
    have := same_sub hs (same_refl ra rb (- m.1, - m.2)); rewrite /quot /= !opprK !addrNK.
    by rewrite /evec.
  apply/L_same; have := same_sub hs (same_refl ra rb m); rewrite /quot /= !addrK -surjective_pairing.
  by [].
apply: eq_big => [t | t /andP [ht _]]; first by congr (_ && _); exact: e.
by rewrite canon2 /= hc.
Qed.
End Fld.
End Change.

(* ---- equivalent codes *)
Section Equiv.
Variables (F : fieldType) (fld : int -> F).
Hypothesis f0 : fld 0 = 0.

(* the entries of the parity checks of a bivariate bicycle code *)
Definition x_ent (ra rb : nat) (pa pb : seq term) (i j : nat) : F :=
  let d := quot (pos rb (j %% (ra * rb))) (pos rb i) in pcoef fld ra rb (if (j < ra * rb)%N then pa else pb) d.
Definition z_ent (ra rb : nat) (pa pb : seq term) (i j : nat) : F :=
  let d := quot (pos rb i) (pos rb (j %% (ra * rb))) in
  if (j < ra * rb)%N then pcoef fld ra rb pb d else - pcoef fld ra rb pa d.

Lemma half_mod d j : (j < d + d)%N -> (j %% d = if (j < d)%N then j else (j - d)%N)%N.
Proof.
move=> hj; case: ltnP => h; first by rewrite modn_small.
by rewrite -{1}(subnK h) modnDr modn_small // ltn_subLR.
Qed.

Lemma bb_code ra rb pa pb : (0 < ra)%N -> (0 < rb)%N ->
  exists c, [/\ qc_code fld [:: ra; rb] pa pb = Some c, c_n c = (ra * rb + ra * rb)%N, size (c_x c) = (ra * rb)%N,
    size (c_z c) = (ra * rb)%N & forall i j, (i < ra * rb)%N -> (j < ra * rb + ra * rb)%N ->
     ent (c_x c) i j = x_ent ra rb pa pb i j /\ ent (c_z c) i j = z_ent ra rb pa pb i j].
Proof.
move=> ra0 rb0; have po := os_pos ra0 rb0; set os := [:: ra; rb] in po *.
have [c [e ok _ [en exx ezz]]] := qc_ok fld po isT pa pb.
have dE : qc_dim os = (ra * rb)%N := dimE ra rb.
have [sA wA _] := qc_mat_ok fld po isT pa; have [sB wB _] := qc_mat_ok fld po isT pb; rewrite dE in sA wA sB wB en ezz.
have sT A : size (trl (ra * rb) A) = (ra * rb)%N by rewrite size_trl.
have sO A : size (mopp A) = size A by rewrite size_map.
exists c; rewrite e en exx ezz; split=> //.
- by rewrite /hcat size_map size_zip sA sB minnn.
- by rewrite /hcat size_map size_zip sO !sT minnn.
move=> i j hi hj; have hm := half_mod hj; split.
  rewrite (ent_hcat _ wA) ?sA ?sB // /x_ent hm; case: ltnP => h; rewrite qc_entry //.
  by rewrite ltn_subLR.
have wBT : wf (ra * rb) (trl (ra * rb) (qc_mat fld os pb)) by rewrite -{1}sB; apply: wf_trl.
rewrite (ent_hcat _ wBT) ?sO ?sT // /z_ent hm; case: ltnP => h.
  by rewrite ent_trl ?sB // qc_entry.
have h2 : (j - ra * rb < ra * rb)%N by rewrite ltn_subLR.
by rewrite ent_mopp ent_trl ?sA // qc_entry.
Qed.

Lemma bij_id n : bij_on n id. Proof. by []. Qed.

(* exchanging the polynomials exchanges the two halves of the qudits *)
Definition swap_half (d j : nat) : nat := if (j < d)%N then (j + d)%N else (j - d)%N.
Lemma bij_swap d : bij_on (d + d) (swap_half d).
Proof.
split=> [i|i j]; rewrite /swap_half; first by case: (ltnP i d); clear; lia.
by case: (ltnP i d); case: (ltnP j d); clear; lia.
Qed.
Lemma swap_halfE d j : (j < d + d)%N -> ((swap_half d j < d)%N = ~~ (j < d)%N) * (swap_half d j %% d = j %% d)%N.
Proof.
move=> hj; have [lt _] := bij_swap d; split; first by move: hj; rewrite /swap_half; case: (ltnP j d); clear; lia.
rewrite (half_mod hj) (half_mod (lt _ hj)) /swap_half; case: (ltnP j d) => h; first by rewrite ltnNge leq_addl addnK.
by rewrite ltn_subLR // hj.
Qed.

Lemma perm_equiv_swap ra rb pa pb c c' : (0 < ra)%N -> (0 < rb)%N ->
  qc_code fld [:: ra; rb] pa pb = Some c -> qc_code fld [:: ra; rb] pb pa = Some c' -> perm_equiv c c'.
Proof.
move=> ra0 rb0 e e'; have [d [ed nd xd zd hd]] := bb_code pa pb ra0 rb0; have [d' [ed' nd' xd' zd' hd']] := bb_code pb pa ra0 rb0.
have ec : d = c by [rewrite e in ed; case: ed]; have ec' : d' = c' by [rewrite e' in ed'; case: ed']; subst d d'.
split; rewrite ?nd ?nd' ?xd ?xd' ?zd ?zd' //; exists id, id, (swap_half (ra * rb)), (-1); split=> //.
- exact: bij_swap.
- by right.
move=> i j hj; have [lt _] := bij_swap (ra * rb)%N; have [s1 s2] := swap_halfE hj.
split=> hi; have [x1 z1] := hd _ _ hi hj; have [x2 z2] := hd' _ _ hi (lt _ hj).
  by rewrite x1 x2 /x_ent s1 s2; case: ltnP.
by rewrite z1 z2 /z_ent s1 s2 mulN1r; case: ltnP => //; rewrite opprK.
Qed.

Lemma bij_comp n f f' : bij_on n f -> bij_on n f' -> bij_on n (fun i => f' (f i)).
Proof. by move=> [l1 i1] [l2 i2]; split=> [i hi|i j hi hj e]; [apply/l2/l1 | apply: i1 => //; apply: i2 => //; apply: l1]. Qed.

Lemma perm_equiv_trans (c1 c2 c3 : csscode F) : perm_equiv c1 c2 -> perm_equiv c2 c3 -> perm_equiv c1 c3.
Proof.
move=> [n1 x1 z1 [fx [fz [pi [s [bx bz bp hs h]]]]]] [n2 x2 z2 [fx' [fz' [pi' [s' [bx' bz' bp' hs' h']]]]]].
split; [congruence | congruence | congruence |].
exists (fun i => fx' (fx i)), (fun i => fz' (fz i)), (fun i => pi' (pi i)), (s' * s).
rewrite ?n1 ?x1 ?z1 in bx' bz' bp' h'.
split; try exact: bij_comp.
  by case: hs hs' => -> [] ->; rewrite ?mulr1 ?mulrNN ?mul1r; [left | right | right | left].
move=> i j hj; have [l _] := bp; have [a b] := h i j hj.
split=> hi; first by have [lx _] := bx; have [a' _] := h' (fx i) (pi j) (l _ hj); rewrite a' ?lx // a.
by have [lz _] := bz; have [_ b'] := h' (fz i) (pi j) (l _ hj); rewrite b' ?lz // b // mulrA.
Qed.

(* a change of basis and a shift of the polynomials *)
Lemma perm_equiv_basis ra rb g h x y ma mb pa pb c c' : (0 < ra)%N -> (0 < rb)%N -> is_valid_basis ra rb g h ->
  modular_inverse ra rb g h 1 0 = Some x -> modular_inverse ra rb g h 0 1 = Some y ->
  (forall t, t \in pa ++ pb -> fld (t.1 ^+ 2) = fld t.1) ->
  qc_code fld [:: ra; rb] pa pb = Some c ->
  qc_code fld [:: get_order ra rb g; get_order ra rb h] (new_poly ra rb g h x y ma pa) (new_poly ra rb g h x y mb pb) = Some c' ->
  perm_equiv c c'.
Proof.
move=> ra0 rb0 ok ex ey hc e e'.
have go := og0 g ra0 rb0; have ho := og0 h ra0 rb0; have eo := basis_orders ok.
set og := get_order ra rb g in go eo e' *; set oh := get_order ra rb h in ho eo e' *.
set na := new_poly _ _ _ _ _ _ ma pa in e'; set nb := new_poly _ _ _ _ _ _ mb pb in e'.
have [d [ed nd xd zd hd]] := bb_code pa pb ra0 rb0; have [d' [ed' nd' xd' zd' hd']] := bb_code na nb go ho.
have ec : d = c by [rewrite e in ed; case: ed]; have ec' : d' = c' by [rewrite e' in ed'; case: ed']; subst d d'.
rewrite eo in nd' xd' zd' hd'; pose L := subst_exps x y; pose D := (ra * rb)%N.
have hL p q : same ra rb p q <-> same og oh (L p) (L q) by apply: L_same.
have ilt p : (idx og oh p < D)%N by rewrite /D -eo; apply: idx_lt.
have inj i j m : (i < D)%N -> (j < D)%N -> idx og oh (L (quot (pos rb i) m)) = idx og oh (L (quot (pos rb j) m)) -> i = j.
  move=> hi hj /(same_idx go ho) /hL hs.
  have := same_sub hs (same_refl ra rb (- m.1, - m.2)); rewrite /quot /= !opprK !addrNK => hs2.
  by rewrite -(idx_pos rb0 hi) -(idx_pos rb0 hj); apply: idx_same.
pose fm m i := idx og oh (L (quot (pos rb i) m)).
have bm m : bij_on D (fm m) by split=> [i _|i j hi hj]; [exact: ilt | exact: inj].
pose mab : vec2 := (ma.1 + mb.1, ma.2 + mb.2).
pose pi j := if (j < D)%N then fm ma (j %% D)%N else (fm mb (j %% D) + D)%N.
have pilt j : ((pi j < D) = (j < D))%N /\ (pi j %% D = fm (if (j < D)%N then ma else mb) (j %% D))%N.
  by rewrite /pi; case: (ltnP j D) => hjD; [rewrite ilt (modn_small (ilt _)) | rewrite ltnNge leq_addl modnDr (modn_small (ilt _))].
have pi2 j : (j < D + D)%N -> (pi j < D + D)%N.
  by move=> hj; rewrite /pi; case: ifP => _; rewrite ?ltn_add2r ?ilt //; apply: leq_trans (ilt _) (leq_addr _ _).
split; rewrite ?nd ?nd' ?xd ?xd' ?zd ?zd' //; exists (fm (0, 0)), (fm mab), pi, 1; split; [exact: bm | exact: bm | | by left |].
  split=> [//|i j hi hj epi].
  have [a1 a2] := pilt i; have [b1 b2] := pilt j; rewrite epi in a1 a2; have lt := etrans (esym a1) b1.
  rewrite lt in a2.
  have D0 : (0 < D)%N by rewrite muln_gt0 ra0.
  have : (i %% D = j %% D)%N by case: (bm (if (j < D)%N then ma else mb)) => _; apply; rewrite ?ltn_mod // -a2 -b2.
  move=> em; have qi := half_mod hi; have qj := half_mod hj; rewrite -/D in em qi qj *.
  move: lt em qi qj hi hj; clear; rewrite -/D; case: (ltnP i D) => h1; case: (ltnP j D) => h2 //.
    by move=> _ -> ->.
  by move=> _ -> -> e2; move: e2 h1 h2; clear; lia.
have D0 : (0 < D)%N by rewrite muln_gt0 ra0.
have cA w (p : vec2) : same og oh p (L w) -> pcoef fld og oh na p = pcoef fld ra rb pa (w.1 + ma.1, w.2 + ma.2).
  move=> hp; rewrite -(pcoef_new ra0 rb0 ok ex ey (fld := fld)); last by move=> t ht; apply: hc; rewrite mem_cat ht.
  by rewrite /pcoef; apply: eq_bigl => t; apply: sameb_congr.
have cB w (p : vec2) : same og oh p (L w) -> pcoef fld og oh nb p = pcoef fld ra rb pb (w.1 + mb.1, w.2 + mb.2).
  move=> hp; rewrite -(pcoef_new ra0 rb0 ok ex ey (fld := fld)); last by move=> t ht; apply: hc; rewrite mem_cat ht orbT.
  by rewrite /pcoef; apply: eq_bigl => t; apply: sameb_congr.
have dif m n i j : same og oh (quot (pos oh (fm m i)) (pos oh (fm n j))) (L (quot (quot (pos rb i) m) (quot (pos rb j) n))).
  by rewrite /L L_quot; apply: same_sub; apply: pos_idx.
move=> i j hj; have [p1 p2] := pilt j; rewrite -/D in hj hd hd' *.
have hjm : (j %% D < D)%N by rewrite ltn_mod.
split=> hi; have [x1 z1] := hd _ _ hi hj.
  have [hx _] := hd' (fm (0, 0) i) (pi j) (ilt _) (pi2 _ hj).
  rewrite hx x1 /x_ent eo -/D p1 p2; case: (ltnP j D) => hjD.
    rewrite (cA _ _ (dif _ _ _ _)) /quot /=; congr pcoef; congr pair; ring.
  rewrite (cB _ _ (dif _ _ _ _)) /quot /=; congr pcoef; congr pair; ring.
have [_ hz] := hd' (fm mab i) (pi j) (ilt _) (pi2 _ hj).
rewrite hz z1 mul1r /z_ent eo -/D p1 p2; case: (ltnP j D) => hjD.
  rewrite (cB _ _ (dif _ _ _ _)) /quot /=; congr pcoef; congr pair; ring.
rewrite (cA _ _ (dif _ _ _ _)) /quot /=; congr (- pcoef _ _ _ _ _); congr pair; ring.
Qed.
End Equiv.

(* ---- the generating data *)
Lemma mem_combs2 (T : eqType) (s : seq T) c : c \in combs2 s -> c.1 \in s /\ c.2 \in s.
Proof.
elim: s => //= x s IH; rewrite mem_cat => /orP [/mapP [y hy ->] | /IH [h1 h2]]; rewrite !inE ?eqxx ?hy ?h1 ?h2 ?orbT //.
Qed.
Lemma combs2_neq (T U : eqType) (f : T -> U) (s : seq T) c : uniq (map f s) -> c \in combs2 s -> f c.1 != f c.2.
Proof.
elim: s => //= x s IH /andP [nx us]; rewrite mem_cat => /orP [/mapP [y hy ->] | /(IH us) //] /=.
by apply: contra nx => /eqP ->; apply: map_f.
Qed.
Lemma combs2_all (T : eqType) (s : seq T) x y : x \in s -> y \in s -> x != y -> ((x, y) \in combs2 s) || ((y, x) \in combs2 s).
Proof.
elim: s => //= z s IH; rewrite !inE !mem_cat => /orP [/eqP -> | hx] /orP [/eqP -> | hy] ne.
- by rewrite eqxx in ne.
- by rewrite map_f.
- by rewrite (map_f (fun y => (z, y)) hx) orbT.
by case/orP: (IH hx hy ne) => ->; rewrite ?orbT.
Qed.

Definition neg (v : vec2) : vec2 := (- v.1, - v.2).
Lemma quot_neg v w : quot v w = neg (quot w v). Proof. by rewrite /neg /quot /= !opprB. Qed.

Section Data.
Variables ra rb : nat.
Hypotheses (ra0 : (0 < ra)%N) (rb0 : (0 < rb)%N).
Notation ord := (get_order ra rb).

Lemma get_order_neg v : ord (neg v) = ord v.
Proof. by rewrite /get_order /period /= !abszN. Qed.

Lemma valid_basisE v w : is_valid_basis ra rb v w <->
  (ord v * ord w = ra * rb)%N /\ forall p, exists a b : int, same ra rb (comb a b v w) p.
Proof.
split=> [hv | [eo hr]].
  split; first by case/andP: hv => /eqP.
  by move=> p; have [c [_ _ hc _]] := (proj1 (is_valid_basisP ra0 rb0 _ _) hv) p; exists c.1%:Z, c.2%:Z.
rewrite /is_valid_basis eo eqxx /=; apply/allP => -[x y]; rewrite mem_pairs => /andP [/= hx hy].
have [a [b hs]] := hr (x%:Z, y%:Z).
apply/allpairsP; exists (`|(a %% ord v)%Z|%N, `|(b %% ord w)%Z|%N).
rewrite !mem_iota !add0n !absz_lt ?get_order_gt0 //; split=> //; apply/esym/eqP.
rewrite (torus_nat hx hy); apply/(point_target ra0 rb0); apply: same_trans hs.
by rewrite !absz_modE ?get_order_gt0 //; apply: comb_mod.
Qed.
Lemma valid_neg1 v w : is_valid_basis ra rb v w -> is_valid_basis ra rb (neg v) w.
Proof.
move=> /valid_basisE [eo hr]; apply/valid_basisE; rewrite get_order_neg; split=> // p; have [a [b hs]] := hr p.
by exists (- a), b; rewrite /comb /= !mulrNN.
Qed.
Lemma valid_swap v w : is_valid_basis ra rb v w -> is_valid_basis ra rb w v.
Proof.
move=> /valid_basisE [eo hr]; apply/valid_basisE; split=> [|p]; first by rewrite mulnC.
by have [a [b hs]] := hr p; exists b, a; rewrite /comb addrC [b * w.2 + _]addrC.
Qed.

Lemma valid_inverse v w : is_valid_basis ra rb v w ->
  exists x y, modular_inverse ra rb v w 1 0 = Some x /\ modular_inverse ra rb v w 0 1 = Some y.
Proof.
move=> hv; have := @new_exponents_total _ _ ra0 rb0 v w (0, 0) hv; rewrite /new_exponents.
by case: (modular_inverse _ _ _ _ 1 0) => [x|//]; case: (modular_inverse _ _ _ _ 0 1) => [y|//] _; exists x, y.
Qed.

Definition either (s : seq (vec2 * vec2)) (a b : vec2) : bool := ((a, b) \in s) || ((b, a) \in s).

Lemma toric_paramsP pa pb q : q \in toric_params ra rb pa pb <->
  [/\ either (combs2 (monomials pa)) q.1.1.1 q.1.1.2, either (combs2 (monomials pb)) q.1.2 q.2 &
      is_valid_basis ra rb (quot q.1.1.2 q.1.1.1) (quot q.2 q.1.2)].
Proof.
have vN v w : is_valid_basis ra rb (neg v) w = is_valid_basis ra rb v w.
  apply/idP/idP => [/valid_neg1 | /valid_neg1 //]; rewrite /neg /= !opprK -surjective_pairing //.
have vN' v w : is_valid_basis ra rb v (neg w) = is_valid_basis ra rb v w.
  by apply/idP/idP => /valid_swap h; apply: valid_swap; move: h; rewrite vN.
case: q => [[[a1 a2] b1] b2] /=; split.
  move=> /flattenP [s /allpairsP [[[c1 c2] [d1 d2]] /= [hc hd ->]]]; case: ifP => // hv.
  rewrite !inE => /or4P [] /eqP [-> -> -> ->]; rewrite /either hc hd ?orbT; split=> //.
  - by rewrite (quot_neg d1) vN'.
  - by rewrite (quot_neg c1) vN.
  by rewrite (quot_neg c1) (quot_neg d1) vN vN'.
case=> /orP ha /orP hb hv; apply/flattenP.
have h1 : is_valid_basis ra rb (quot a1 a2) (quot b2 b1) by rewrite (quot_neg a1) vN.
have h2 : is_valid_basis ra rb (quot a2 a1) (quot b1 b2) by rewrite (quot_neg b1) vN'.
have h3 : is_valid_basis ra rb (quot a1 a2) (quot b1 b2) by rewrite (quot_neg b1) vN'.
case: ha => ha; case: hb => hb.
- exists [:: (a1, a2, b1, b2); (a1, a2, b2, b1); (a2, a1, b1, b2); (a2, a1, b2, b1)]; last by rewrite !inE eqxx ?orbT.
  by apply/allpairsP; exists ((a1, a2), (b1, b2)); rewrite /= hv.
- exists [:: (a1, a2, b2, b1); (a1, a2, b1, b2); (a2, a1, b2, b1); (a2, a1, b1, b2)]; last by rewrite !inE eqxx ?orbT.
  by apply/allpairsP; exists ((a1, a2), (b2, b1)); rewrite /= h2.
- exists [:: (a2, a1, b1, b2); (a2, a1, b2, b1); (a1, a2, b1, b2); (a1, a2, b2, b1)]; last by rewrite !inE eqxx ?orbT.
  by apply/allpairsP; exists ((a2, a1), (b1, b2)); rewrite /= h1.
exists [:: (a2, a1, b2, b1); (a2, a1, b1, b2); (a1, a2, b2, b1); (a1, a2, b1, b2)]; last by rewrite !inE eqxx ?orbT.
by apply/allpairsP; exists ((a2, a1), (b2, b1)); rewrite /= h3.
Qed.

(* no four monomials raise an error, whatever the polynomials *)
Lemma toric_entry_total pa pb q : q \in toric_params ra rb pa pb -> toric_entry ra rb pa pb q <> None.
Proof.
move=> /toric_paramsP; case: q => [[[a1 a2] b1] b2] /= [_ _ hv]; rewrite /toric_entry.
case: ifP => _; [move/valid_swap: hv => hv|]; have [x [y [ex ey]]] := valid_inverse hv; by rewrite !(change_polyE ex ey).
Qed.

Lemma toric_entryE pa pb q : (1 < size pa)%N -> (1 < size pb)%N -> q \in toric_params ra rb pa pb ->
  let g := quot q.1.1.2 q.1.1.1 in let h := quot q.2 q.1.2 in
  exists x y, if (ord g < ord h)%N
    then [/\ is_valid_basis ra rb h g, modular_inverse ra rb h g 1 0 = Some x, modular_inverse ra rb h g 0 1 = Some y &
      toric_entry ra rb pa pb q = Some (ord h, ord g, (new_poly ra rb h g x y q.1.2 pb, new_poly ra rb h g x y q.1.1.1 pa))]
    else [/\ is_valid_basis ra rb g h, modular_inverse ra rb g h 1 0 = Some x, modular_inverse ra rb g h 0 1 = Some y &
      toric_entry ra rb pa pb q = Some (ord g, ord h, (new_poly ra rb g h x y q.1.1.1 pa, new_poly ra rb g h x y q.1.2 pb))].
Proof.
move=> spa spb /toric_paramsP; case: q => [[[a1 a2] b1] b2] /= [_ _ hv]; rewrite /toric_entry.
case: ifP => _; [move/valid_swap: hv => hv|]; have [x [y [ex ey]]] := valid_inverse hv; exists x, y; split=> //;
  by rewrite !(new_polyE ex ey).
Qed.

(* ---- the loop *)
Lemma add_data_none pa pb qs : foldl (add_data ra rb pa pb) None qs = None.
Proof. by elim: qs. Qed.
Lemma same_data_refl d : same_data d d. Proof. by rewrite /same_data eqxx !perm_refl. Qed.

Lemma add_dataP pa pb qs l0 : (forall q, q \in qs -> toric_entry ra rb pa pb q <> None) ->
  exists l, [/\ foldl (add_data ra rb pa pb) (Some l0) qs = Some l,
    forall d, d \in l -> d \in l0 \/ exists2 q, q \in qs & toric_entry ra rb pa pb q = Some d,
    forall d, d \in l0 -> d \in l,
    forall q d, q \in qs -> toric_entry ra rb pa pb q = Some d -> has (same_data d) l &
    (pairwise (fun d e => ~~ same_data e d) l0 -> pairwise (fun d e => ~~ same_data e d) l)].
Proof.
elim: qs l0 => [|q qs IH] l0 ht; first by exists l0; split=> // d h; left.
have hq := ht q (mem_head _ _); case eq: (toric_entry ra rb pa pb q) hq => [d|//] _.
have ht' q' : q' \in qs -> toric_entry ra rb pa pb q' <> None by move=> h; apply: ht; rewrite inE h orbT.
have [l [e h1 h2 h3 h4]] := IH (if has (same_data d) l0 then l0 else rcons l0 d) ht'.
have sub d' : d' \in l0 -> d' \in (if has (same_data d) l0 then l0 else rcons l0 d).
  by case: ifP => // _; rewrite mem_rcons inE => ->; rewrite orbT.
exists l; split.
- by rewrite /= eq.
- move=> d' /h1 [] h.
    have : d' \in l0 \/ d' = d by move: h; case: ifP => _; [left | rewrite mem_rcons inE => /orP [/eqP -> | ->]; [right | left]].
    by case=> [?|->]; [left | right; exists q; rewrite ?mem_head].
  by case: h => q' hq' eq'; right; exists q' => //; rewrite inE hq' orbT.
- by move=> d' hd; apply/h2/sub.
- move=> q' d'; rewrite inE => /orP [/eqP -> | hq' eq']; last exact: (h3 q').
  rewrite eq => -[<-]; case hh: (has (same_data d) l0).
    by case/hasP: hh => d0 hd0 sd; apply/hasP; exists d0 => //; apply/h2/sub.
  by apply/hasP; exists d; rewrite ?same_data_refl //; apply: h2; rewrite hh mem_rcons mem_head.
move=> pw; apply: h4; case: ifP => // /negbT /hasPn nh; rewrite -cats1 pairwise_cat pw /= allrel1r andbT.
by apply/allP => d0 /nh.
Qed.

Theorem toric_dataP connected pa pb : exists l, [/\ toric_data ra rb connected pa pb = Some l,
  forall d, d \in l -> exists2 q, q \in toric_params ra rb pa pb & toric_entry ra rb pa pb q = Some d,
  connected -> forall q d, q \in toric_params ra rb pa pb -> toric_entry ra rb pa pb q = Some d -> has (same_data d) l &
  pairwise (fun d e => ~~ same_data e d) l].
Proof.
rewrite /toric_data; case: connected => /=; last by exists [::].
have [l [e h1 _ h3 h4]] := add_dataP [::] (@toric_entry_total pa pb); exists l; split=> //; last exact: h4.
by move=> d /h1 [].
Qed.

Variables (F : fieldType) (fld : int -> F).
Hypothesis f0 : fld 0 = 0.

Theorem toric_equiv connected pa pb l d c : (1 < size pa)%N -> (1 < size pb)%N ->
  (forall t, t \in pa ++ pb -> fld (t.1 ^+ 2) = fld t.1) ->
  toric_data ra rb connected pa pb = Some l -> d \in l -> qc_code fld [:: ra; rb] pa pb = Some c ->
  exists2 c', qc_code fld [:: d.1.1; d.1.2] d.2.1 d.2.2 = Some c' & perm_equiv c c'.
Proof.
move=> spa spb hc el dl ec; have [l' [el' hl _ _]] := toric_dataP connected pa pb.
have e : l' = l by [rewrite el in el'; case: el']; subst l'; have [q hq] := hl _ dl.
have hc' t : t \in pb ++ pa -> fld (t.1 ^+ 2) = fld t.1 by rewrite mem_cat orbC -mem_cat; apply: hc.
have [x [y]] := toric_entryE spa spb hq; case: ifP => _ [hv ex ey ->] [<-] /=.
  have [c' [ec' _ _ _ _]] := bb_code f0 (new_poly ra rb (quot q.2 q.1.2) (quot q.1.1.2 q.1.1.1) x y q.1.2 pb)
    (new_poly ra rb (quot q.2 q.1.2) (quot q.1.1.2 q.1.1.1) x y q.1.1.1 pa) (og0 (quot q.2 q.1.2) ra0 rb0) (og0 (quot q.1.1.2 q.1.1.1) ra0 rb0).
  exists c' => //; have [c2 [ec2 _ _ _ _]] := bb_code f0 pb pa ra0 rb0.
  apply: perm_equiv_trans (perm_equiv_swap f0 ra0 rb0 ec ec2) _.
  exact: (perm_equiv_basis f0 ra0 rb0 hv ex ey hc' ec2 ec').
have [c' [ec' _ _ _ _]] := bb_code f0 (new_poly ra rb (quot q.1.1.2 q.1.1.1) (quot q.2 q.1.2) x y q.1.1.1 pa)
    (new_poly ra rb (quot q.1.1.2 q.1.1.1) (quot q.2 q.1.2) x y q.1.2 pb) (og0 (quot q.1.1.2 q.1.1.1) ra0 rb0) (og0 (quot q.2 q.1.2) ra0 rb0).
exists c' => //; exact: (perm_equiv_basis f0 ra0 rb0 hv ex ey hc ec ec').
Qed.

(* the terms of a polynomial are at different plaquettes *)
Definition distinct_terms (r s : nat) (p : seq term) : bool := uniq [seq idx r s (evec t.2) | t <- p].

Lemma new_poly_distinct g h x y m p : is_valid_basis ra rb g h -> modular_inverse ra rb g h 1 0 = Some x ->
  modular_inverse ra rb g h 0 1 = Some y -> distinct_terms ra rb p -> distinct_terms (ord g) (ord h) (new_poly ra rb g h x y m p).
Proof.
move=> hv ex ey up; rewrite /distinct_terms /new_poly /subst_poly /shift_poly -!map_comp.
have up' : uniq p by apply: map_uniq up.
rewrite map_inj_in_uniq // => t u ht hu; rewrite /comp => /(same_idx (og0 g ra0 rb0) (og0 h ra0 rb0)) hs.
apply: (uniq_map_inj up ht hu); apply: idx_same.
have : same (ord g) (ord h) (subst_exps x y (quot (evec t.2) m)) (subst_exps x y (quot (evec u.2) m)).
  move: hs; rewrite !canon2 /= => -[/= h1 h2]; rewrite !canon_exp_mod in h1 h2; split=> //=.
move=> /(L_same ra0 rb0 hv ex ey) hs'; have := same_sub hs' (same_refl ra rb (neg m)).
by rewrite /quot /neg /= !opprK !addrNK.
Qed.

Lemma new_poly_has g h x y m e p : is_valid_basis ra rb g h -> modular_inverse ra rb g h 1 0 = Some x ->
  modular_inverse ra rb g h 0 1 = Some y -> e \in [seq evec t.2 | t <- p] -> forall v : vec2, same (ord g) (ord h) (subst_exps x y (quot e m)) v ->
  exists2 t, t \in new_poly ra rb g h x y m p & t.2 = [:: canon_exp (ord g) v.1; canon_exp (ord h) v.2].
Proof.
move=> hv ex ey /mapP [t ht ->] v [h1 h2].
have ce (o : nat) (z w : int) : (z = w %[mod o])%Z -> canon_exp o z = canon_exp o w by rewrite /canon_exp => ->.
exists (canon_term [:: ord g; ord h] (t.1, [:: (subst_exps x y (quot (evec t.2) m)).1; (subst_exps x y (quot (evec t.2) m)).2])).
  by rewrite /new_poly; apply: map_f; rewrite /subst_poly /shift_poly -map_comp; apply/mapP; exists t.
by rewrite canon2 /=; congr [:: _; _]; apply: ce.
Qed.

Lemma canon_exp0 o : canon_exp o 0 = 0.
Proof. by rewrite /canon_exp mod0z mulr0 ltz_nat. Qed.
Lemma canon_exp1 o : (1 < o)%N -> canon_exp o 1 = 1.
Proof. by move=> o1; rewrite /canon_exp modz_small // mulr1 ltz_nat ltnNge o1. Qed.

Lemma order_gt1 a b : idx ra rb a != idx ra rb b -> (1 < ord (quot b a))%N.
Proof.
move=> ne; rewrite ltn_neqAle get_order_gt0 // andbT; apply/eqP => e; case/eqP: ne; apply: idx_same.
have : (ord (quot b a) %| 1)%Z by rewrite -e dvdz1.
move=> /(get_orderP ra0 rb0); rewrite !mul1r => hs; apply: same_sym.
by have := same_sub hs (same_refl ra rb (neg a)); rewrite /quot /neg /= !opprK !addrNK !add0r -!surjective_pairing.
Qed.

Lemma eitherP (p : seq term) a b : (1 < size p)%N -> distinct_terms ra rb p -> either (combs2 (monomials p)) a b ->
  [/\ a \in [seq evec t.2 | t <- p], b \in [seq evec t.2 | t <- p] & (1 < ord (quot b a))%N].
Proof.
move=> sp; have -> : monomials p = [seq evec t.2 | t <- p] by case: p sp => [|t [|u p]].
rewrite /distinct_terms => up.
have up' : uniq (map (idx ra rb) [seq evec t.2 | t <- p]) by rewrite -map_comp.
case/orP => h; have [/= h1 h2] := mem_combs2 h; have ne := combs2_neq up' h; split=> //; apply: order_gt1 => //.
by rewrite eq_sym.
Qed.

Theorem toric_form connected pa pb l d : (1 < size pa)%N -> (1 < size pb)%N -> distinct_terms ra rb pa -> distinct_terms ra rb pb ->
  toric_data ra rb connected pa pb = Some l -> d \in l ->
  [/\ (d.1.1 * d.1.2 = ra * rb)%N, (1 < d.1.2 <= d.1.1)%N,
   distinct_terms d.1.1 d.1.2 d.2.1 /\ distinct_terms d.1.1 d.1.2 d.2.2,
   [:: 0; 0] \in [seq t.2 | t <- d.2.1] /\ [:: 1; 0] \in [seq t.2 | t <- d.2.1] &
   [:: 0; 0] \in [seq t.2 | t <- d.2.2] /\ [:: 0; 1] \in [seq t.2 | t <- d.2.2]].
Proof.
move=> spa spb da db el dl; have [l' [el' hl _ _]] := toric_dataP connected pa pb.
have e : l' = l by [rewrite el in el'; case: el']; subst l'; have [q hq] := hl _ dl.
have [ha hb _] := (proj1 (toric_paramsP _ _ _)) hq.
have [a1 a2 ga] := eitherP spa da ha; have [b1 b2 gb] := eitherP spb db hb.
have main g h x y pa' pb' m n m' n' : is_valid_basis ra rb g h -> modular_inverse ra rb g h 1 0 = Some x -> modular_inverse ra rb g h 0 1 = Some y ->
    (1 < ord h)%N -> (1 < ord g)%N -> (ord h <= ord g)%N -> distinct_terms ra rb pa' -> distinct_terms ra rb pb' ->
    m \in [seq evec t.2 | t <- pa'] -> m' \in [seq evec t.2 | t <- pa'] ->  n \in [seq evec t.2 | t <- pb'] -> n' \in [seq evec t.2 | t <- pb'] ->
    g = quot m' m -> h = quot n' n ->
    let A := new_poly ra rb g h x y m pa' in let B := new_poly ra rb g h x y n pb' in
    [/\ (ord g * ord h = ra * rb)%N, (1 < ord h <= ord g)%N, distinct_terms (ord g) (ord h) A /\ distinct_terms (ord g) (ord h) B,
     [:: 0; 0] \in [seq t.2 | t <- A] /\ [:: 1; 0] \in [seq t.2 | t <- A] & [:: 0; 0] \in [seq t.2 | t <- B] /\ [:: 0; 1] \in [seq t.2 | t <- B]].
  move=> hv ex ey h1 g1 hg dA dB hm hm' hn hn' eg eh A B; split; rewrite ?h1 ?hg //.
  - exact: basis_orders.
  - by split; apply: new_poly_distinct.
  - split.
      have := new_poly_has (m := m) (x := x) (y := y) hv ex ey hm (v := (0, 0)).
      by rewrite /quot !subrr L_0 => /(_ (same_refl _ _ _)) [t ht] /=; rewrite !canon_exp0 => <-; apply: map_f.
    have := new_poly_has (m := m) (x := x) (y := y) hv ex ey hm' (v := (1, 0)).
    rewrite -eg => /(_ (L_g ra0 rb0 hv ex ey)) [t ht] /=; rewrite canon_exp0 canon_exp1 // => <-; exact: map_f.
  split.
    have := new_poly_has (m := n) (x := x) (y := y) hv ex ey hn (v := (0, 0)).
    by rewrite /quot !subrr L_0 => /(_ (same_refl _ _ _)) [t ht] /=; rewrite !canon_exp0 => <-; apply: map_f.
  have := new_poly_has (m := n) (x := x) (y := y) hv ex ey hn' (v := (0, 1)).
  rewrite -eh => /(_ (L_h ra0 rb0 hv ex ey)) [t ht] /=; rewrite canon_exp0 canon_exp1 // => <-; exact: map_f.
have [x [y]] := toric_entryE spa spb hq; case: ltnP => lt [hv ex ey ->] [<-] /=.
  by apply: main hv ex ey _ _ (ltnW lt) _ _ b1 b2 a1 a2 _ _.
by apply: main hv ex ey _ _ lt _ _ a1 a2 b1 b2 _ _.
Qed.

(* all pairs of generators are tried *)
Theorem toric_complete pa pb (a1 a2 b1 b2 : vec2) : (1 < size pa)%N -> (1 < size pb)%N ->
  a1 \in [seq evec t.2 | t <- pa] -> a2 \in [seq evec t.2 | t <- pa] -> b1 \in [seq evec t.2 | t <- pb] -> b2 \in [seq evec t.2 | t <- pb] ->
  a1 != a2 -> b1 != b2 -> is_valid_basis ra rb (quot a2 a1) (quot b2 b1) -> forall l, toric_data ra rb true pa pb = Some l ->
  exists2 d, d \in l & d.1 = (maxn (ord (quot a2 a1)) (ord (quot b2 b1)), minn (ord (quot a2 a1)) (ord (quot b2 b1))).
Proof.
move=> spa spb ha1 ha2 hb1 hb2 na nb hv l el; have [l' [el' _ h _]] := toric_dataP true pa pb.
have e : l' = l by [rewrite el in el'; case: el']; subst l'.
have mE (p : seq term) : (1 < size p)%N -> monomials p = [seq evec t.2 | t <- p] by case: p => [|t [|u p]].
have hq : (a1, a2, b1, b2) \in toric_params ra rb pa pb.
  by apply/toric_paramsP; rewrite /= /either !mE //; split=> //; apply: combs2_all.
have [x [y]] := toric_entryE spa spb hq.
case: (ltnP (ord (quot a2 a1)) (ord (quot b2 b1))) => lt [_ _ _ et]; have /hasP [d dl /and3P [/eqP ed _ _]] := h isT _ _ hq et; by exists d => //; rewrite -ed.
Qed.
End Data.
