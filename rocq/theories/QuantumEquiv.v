(* Equality and equivalence of quantum codes: model of qldpc/codes/common.py:147-156, 749-755, 772-777, 1604-1611 and 1664-1681. *)
From mathcomp Require Import all_ssreflect all_algebra zify.
From Verif Require Import LinAlg RowReduce Symplectic Classical ClassicalProofs Quantum QuantumProofs QuantumDist Css CssProofs.
Set Implicit Arguments.
Unset Strict Implicit.
Unset Printing Implicit Defensive.
Import GRing.Theory.
Local Open Scope ring_scope.

(* ============================================================================== model *)
Section Model.
Variable F : fieldType.
Notation mat := (seq (seq F)).

(* the Python object of a quantum code: a QuditCode that is not a CSSCode, or a CSSCode *)
Inductive qobj := Plain of qcode F | Sep of csscode F.

(* common.py:155-159, 851-853, 1683-1685: len *)
Definition o_len (o : qobj) : nat := match o with Plain c => q_n c | Sep c => c_n c end.
(* common.py:140-143, 1654-1662: matrix *)
Definition o_mat (o : qobj) : mat := match o with Plain c => q_mat c | Sep c => css_mat (c_n c) (c_x c) (c_z c) end.
(* common.py:767-770: is_subsystem_code *)
Definition o_sub (o : qobj) : bool := match o with Plain c => q_sub c | Sep c => c_sub c end.
(* common.py:772-777, 1664-1671: canonicalized *)
Definition o_canon (o : qobj) : qobj := match o with Plain c => Plain (q_canon c) | Sep c => Sep (c_canon c) end.

(* np.array_equal (external) of matrices with n and n' columns *)
Definition array_equal (n n' : nat) (A B : mat) : bool := (n == n') && (A == B).
(* common.py:150-155: AbstractCode.equiv and QuditCode.equiv, for codes over the same field *)
Definition abs_equiv (a b : qobj) : bool :=
  array_equal (o_len a + o_len a) (o_len b + o_len b) (o_mat (o_canon a)) (o_mat (o_canon b)).
(* common.py:1673-1680: CSSCode.equiv, for codes over the same field *)
Definition css_equiv (a b : qobj) : bool :=
  match a, b with
  | Sep a', Sep b' => equiv (mkcode (c_n a') (c_x a')) (mkcode (c_n b') (c_x b')) &&
                      equiv (mkcode (c_n a') (c_z a')) (mkcode (c_n b') (c_z b'))
  | _, _ => abs_equiv a b
  end.

(* an object together with its class.  Classes inherit from one base each; a class is given by the path from QuditCode to it
   ([::] is QuditCode), and is a subclass of another one if the other one's path is a prefix.  cssp is the path of CSSCode *)
Variable cssp : seq nat.
Record pyobj := PyObj { p_cls : seq nat; p_obj : qobj }.
Definition subclass (c d : seq nat) : bool := prefix d c.
Definition py_ok (o : pyobj) : bool :=
  (if p_obj o is Sep _ then true else false) == subclass (p_cls o) cssp.
(* common.py:749-755: QuditCode.__eq__; common.py:1604-1611: CSSCode.__eq__; over the same field *)
Definition dunder_eq (a b : pyobj) : bool :=
  match p_obj a with
  | Plain x => array_equal (q_n x + q_n x) (o_len (p_obj b) + o_len (p_obj b)) (q_mat x) (o_mat (p_obj b))
  | Sep x => subclass (p_cls b) (p_cls a) &&
      (if p_obj b is Sep y then array_equal (c_n x) (c_n y) (c_x x) (c_x y) && array_equal (c_n x) (c_n y) (c_z x) (c_z y)
       else false)
  end.
(* the expression a == b: if the class of b is a proper subclass of the class of a, then Python asks b first *)
Definition py_eq (a b : pyobj) : bool :=
  if (p_cls a != p_cls b) && subclass (p_cls b) (p_cls a) then dunder_eq b a else dunder_eq a b.
End Model.

(* ====================================================================== specification *)
Section Spec.
Variable F : fieldType.
(* the two codes are defined on the same number of qudits, and their checks generate the same group *)
Definition same_group (n n' : nat) (A B : seq (seq F)) : Prop := n = n' /\ forall v, span (n + n) A v <-> span (n + n) B v.
Definition o_ok (o : qobj F) : Prop := match o with Plain c => q_ok c | Sep c => c_ok c end.
Definition o_dim (o : qobj F) : nat := match o with Plain c => q_dimension c | Sep c => c_dimension c end.
End Spec.

(* ============================================================================= proofs *)
Section Proofs.
Variable F : fieldType.
Implicit Types a b : qobj F.

Lemma o_wf a : o_ok a -> wf (o_len a + o_len a) (o_mat a).
Proof. by case: a => c /=; [case | case=> _ wx wz *; apply: wf_css]. Qed.
Lemma o_canonE a : o_ok a -> o_mat (o_canon a) = canon (o_len a + o_len a) (o_mat a).
Proof. by case: a => c //= [_ wx wz *]; rewrite canon_css. Qed.

Lemma canon_group n (A B : seq (seq F)) : wf (n + n) A -> wf (n + n) B ->
  canon (n + n) A = canon (n + n) B <-> forall v, span (n + n) A v <-> span (n + n) B v.
Proof.
move=> wA wB; rewrite span_eqmx; split=> [e | e].
  by apply: eqmx_trans (eqmx_sym (sp_canon wA)) _; rewrite e; apply: sp_canon.
apply: (rref_unique (canon_rref wA) (canon_rref wB)); apply: eqmx_trans (sp_canon wA) _; apply: eqmx_trans e _.
exact: eqmx_sym (sp_canon wB).
Qed.

Lemma abs_equivP a b : o_ok a -> o_ok b -> abs_equiv a b <-> same_group (o_len a) (o_len b) (o_mat a) (o_mat b).
Proof.
move=> ha hb; have wA := o_wf ha; have wB := o_wf hb; rewrite /abs_equiv /array_equal !o_canonE //; split.
  case/andP => /eqP e1 /eqP e2; have e : o_len a = o_len b by apply: double_inj; rewrite -!addnn.
  by split=> //; move: e2; rewrite -e in wB *; move/(canon_group wA wB).
case=> e h; rewrite -e eqxx /=; apply/eqP; rewrite -e in wB; exact/(canon_group wA wB).
Qed.

Lemma block_sub m1 m2 p1 p2 n1 n2 (A : 'M[F]_(m1, n1)) (B : 'M[F]_(m2, n2)) (C : 'M[F]_(p1, n1)) (D : 'M[F]_(p2, n2)) :
  (block_mx A 0 0 B <= block_mx C 0 0 D)%MS -> (A <= C)%MS && (B <= D)%MS.
Proof.
case/submxP => M; rewrite -[M]submxK mulmx_block !mulmx0 !addr0 !add0r => /eq_block_mx [-> _ _ ->].
by rewrite !submxMl.
Qed.

Lemma css_group n (X Z X' Z' : seq (seq F)) : wf n X -> wf n Z -> wf n X' -> wf n Z' ->
  (forall v, span (n + n) (css_mat n X Z) v <-> span (n + n) (css_mat n X' Z') v) <->
  canon n X = canon n X' /\ canon n Z = canon n Z'.
Proof.
move=> wX wZ wX' wZ'; rewrite span_eqmx; split=> [h | [e1 e2]].
  have h' : (block_mx (sp n X) 0 0 (sp n Z) :=: block_mx (sp n X') 0 0 (sp n Z'))%MS.
    apply: eqmx_trans (eqmx_sym (sp_css wX wZ)) _; apply: eqmx_trans h _; exact: sp_css.
  have /eqmxP /andP [l1 l2] := h'.
  have /andP [x1 z1] := block_sub l1; have /andP [x2 z2] := block_sub l2.
  split; [apply: (rref_unique (canon_rref wX) (canon_rref wX')) | apply: (rref_unique (canon_rref wZ) (canon_rref wZ'))].
    apply: eqmx_trans (sp_canon wX) _; apply: eqmx_trans (eqmx_sym (sp_canon wX')); apply/eqmxP; exact/andP.
  apply: eqmx_trans (sp_canon wZ) _; apply: eqmx_trans (eqmx_sym (sp_canon wZ')); apply/eqmxP; exact/andP.
apply/span_eqmx/(canon_group (wf_css wX wZ) (wf_css wX' wZ')).
by rewrite !canon_css // e1 e2.
Qed.

Lemma css_equivP a b : o_ok a -> o_ok b -> css_equiv a b <-> same_group (o_len a) (o_len b) (o_mat a) (o_mat b).
Proof.
case: a b => [a|a] [b|b] ha hb; try exact: abs_equivP.
have [_ wax waz _ _] := ha; have [_ wbx wbz _ _] := hb; rewrite /css_equiv /equiv /=; split.
  case/andP => /andP [/eqP e /eqP h1] /andP [_ /eqP h2]; split=> //; rewrite -e in wbx wbz h1 h2 *.
  by have := proj2 (css_group wax waz wbx wbz) (conj h1 h2); apply.
case=> e; rewrite /same_group -e in wbx wbz *; move/(css_group wax waz wbx wbz) => [-> ->].
by rewrite !eqxx.
Qed.

(* ---- what equivalent codes share *)
Lemma group_central n (A B : seq (seq F)) v : wf (n + n) A -> wf (n + n) B ->
  (forall v, span (n + n) A v <-> span (n + n) B v) -> central n A v <-> central n B v.
Proof.
move=> wA wB /span_eqmx h; rewrite !centralP //.
suff e : (sp (n + n) A :&: scomp (sp (n + n) A) :=: sp (n + n) B :&: scomp (sp (n + n) B))%MS by rewrite e.
by apply: cap_eqmx; [|apply: scomp_eqmx].
Qed.
Lemma group_dist n (A B : seq (seq F)) d : wf (n + n) A -> wf (n + n) B ->
  (forall v, span (n + n) A v <-> span (n + n) B v) -> is_qdist n A d <-> is_qdist n B d.
Proof.
move=> wA wB h; have nt v : nontrivial n A v <-> nontrivial n B v.
  split=> -[sv hc hn]; split=> //; try by move=> /h.
    by move=> s /(group_central _ wA wB h); apply: hc.
  by move=> s /(group_central _ wA wB h); apply: hc.
by rewrite /is_qdist; split=> -[[v hv e] lo]; split; [exists v => //; apply/nt | move=> u /nt; apply: lo | exists v => //; apply/nt | move=> u /nt; apply: lo].
Qed.
Lemma group_counts n (A B : seq (seq F)) k g : wf (n + n) A -> wf (n + n) B ->
  (forall v, span (n + n) A v <-> span (n + n) B v) -> counts n A k g <-> counts n B k g.
Proof.
move=> wA wB /span_eqmx h; rewrite !countsP //.
suff e : (sp (n + n) A :&: scomp (sp (n + n) A) :=: sp (n + n) B :&: scomp (sp (n + n) B))%MS by rewrite h e.
by apply: cap_eqmx; [|apply: scomp_eqmx].
Qed.

Lemma o_counts a : o_ok a -> exists g, counts (o_len a) (o_mat a) (o_dim a) g.
Proof. case: a => c h; [exists (q_gauge_dimension c); exact: dimension_counts | exists (c_gauge_dimension c); exact: c_counts]. Qed.

Lemma equiv_params a b : o_ok a -> o_ok b -> same_group (o_len a) (o_len b) (o_mat a) (o_mat b) ->
  [/\ o_dim a = o_dim b, forall d, is_qdist (o_len a) (o_mat a) d <-> is_qdist (o_len b) (o_mat b) d
    & forall v, central (o_len a) (o_mat a) v <-> central (o_len b) (o_mat b) v].
Proof.
move=> ha hb [e h]; have wA := o_wf ha; have wB := o_wf hb; have [g ca] := o_counts ha; have [g' cb] := o_counts hb.
rewrite -e in wB cb *; split.
- by have /(group_counts _ _ wA wB h) ca' := ca; have [] := counts_unique wB ca' cb.
- by move=> d; apply: group_dist.
by move=> v; apply: group_central.
Qed.

(* ---- equality *)
Variable cssp : seq nat.
Implicit Types x y z : pyobj F.

Lemma sub_refl (c : seq nat) : subclass c c.
Proof. by rewrite /subclass prefixE take_size. Qed.
Lemma sub_anti (c d : seq nat) : subclass c d -> subclass d c -> c = d.
Proof.
rewrite /subclass => /prefixP [u e1] /prefixP [v e2].
have s0 : size u = 0%N by have := congr1 size e1; rewrite {1}[d in RHS]e2 !size_cat; move: (size c) (size u) (size v); clear; lia.
by rewrite e1 (size0nil s0) cats0.
Qed.

(* the object is a QuditCode, or an object of a class derived from CSSCode *)
Definition py_std x : bool := if p_obj x is Sep _ then subclass (p_cls x) cssp else p_cls x == [::].
(* what decides equality *)
Definition eq_spec x y : Prop :=
  match p_obj x, p_obj y with
  | Plain c, Plain d => q_n c = q_n d /\ q_mat c = q_mat d
  | Sep c, Sep d => [/\ p_cls x = p_cls y, c_n c = c_n d, c_x c = c_x d & c_z c = c_z d]
  | _, _ => False
  end.

Lemma dbl_eq (m n : nat) : (m + m == n + n)%N = (m == n).
Proof. by rewrite !addnn (inj_eq double_inj). Qed.

Lemma py_eqP x y : cssp != [::] -> py_std x -> py_std y -> py_eq x y <-> eq_spec x y.
Proof.
move=> c0; rewrite /py_std /py_eq /eq_spec /dunder_eq /array_equal.
case: x y => [cx [c|c]] [cy [d|d]] /=.
- move=> /eqP -> /eqP ->; rewrite eqxx /= dbl_eq; split=> [/andP [/eqP -> /eqP ->] // | [-> ->]]; by rewrite !eqxx.
- move=> /eqP -> h; have -> : ([::] != cy) && subclass cy [::] = true.
    by rewrite /subclass prefix0s andbT; apply: contraNneq c0 => e; move: h; rewrite -e /subclass prefixs0.
  by rewrite andbF.
- move=> h /eqP ->; case: ifP => [/andP [n0]|_]; last by rewrite andbF.
  by rewrite /subclass prefixs0 => e; rewrite e in n0.
- move=> hx hy; split; last first.
    by case=> -> -> -> ->; rewrite !eqxx sub_refl.
  case: eqP => [<- | ne] /=; first by case/and4P => _ /andP [/eqP -> /eqP ->] _ /eqP ->.
  case: ifP => [s1 /andP [s2 _]|ns /andP [s1 _]]; last by rewrite s1 in ns.
  by case: ne; apply: sub_anti.
Qed.

Lemma eq_equivalence : cssp != [::] ->
  [/\ forall x, py_std x -> py_eq x x, forall x y, py_std x -> py_std y -> py_eq x y -> py_eq y x
    & forall x y z, py_std x -> py_std y -> py_std z -> py_eq x y -> py_eq y z -> py_eq x z].
Proof.
move=> c0; split.
- by move=> x hx; apply/py_eqP => //; rewrite /eq_spec; case: (p_obj x).
- move=> x y hx hy /(py_eqP c0 hx hy) h; apply/py_eqP => //; move: h; rewrite /eq_spec.
  by case: (p_obj x) (p_obj y) => c [d|d] //; [case=> -> -> | case=> -> -> -> ->].
move=> x y z hx hy hz /(py_eqP c0 hx hy) h /(py_eqP c0 hy hz) h'; apply/py_eqP => //; move: h h'; rewrite /eq_spec.
by case: (p_obj x) (p_obj y) (p_obj z) => c [d|d] [e|e] //; [case=> -> -> | case=> -> -> -> ->].
Qed.

Lemma eq_same x y : cssp != [::] -> py_std x -> py_std y -> py_eq x y ->
  o_len (p_obj x) = o_len (p_obj y) /\ o_mat (p_obj x) = o_mat (p_obj y).
Proof.
move=> c0 hx hy /(py_eqP c0 hx hy); rewrite /eq_spec.
by case: (p_obj x) (p_obj y) => c [d|d] //= [] // _ -> -> ->.
Qed.

Lemma eq_equiv x y : cssp != [::] -> py_std x -> py_std y -> o_ok (p_obj x) -> o_ok (p_obj y) -> py_eq x y ->
  abs_equiv (p_obj x) (p_obj y) /\ css_equiv (p_obj x) (p_obj y).
Proof.
move=> c0 hx hy ox oy /(eq_same c0 hx hy) [e1 e2].
by split; [apply/abs_equivP | apply/css_equivP] => //; rewrite /same_group e1 e2.
Qed.
End Proofs.
