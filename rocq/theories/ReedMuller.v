(* Reed-Muller codes (model: Families.v, qldpc/codes/classical.py:140-181) are evaluation codes, and their duals. *)
From mathcomp Require Import all_ssreflect all_algebra zify ring.
From Verif Require Import LinAlg RowReduce Classical ClassicalProofs ClassicalProofs2 ClassicalDist Families FamiliesProofs FamiliesProofs2.
Set Implicit Arguments.
Unset Strict Implicit.
Unset Printing Implicit Defensive.
Import GRing.Theory.
Local Open Scope ring_scope.

(* ====================================================================== specification *)
(* the binary digit of weight 2^i of a number *)
Definition rbit (i j : nat) : bool := odd (j %/ 2 ^ i).
(* a number s below 2^m stands for the monomial made of the variables x_i with i a binary digit of s; its degree *)
Definition deg (m s : nat) : nat := (\sum_(i < m) rbit i s)%N.
Section Spec.
Variable F : fieldType.
(* the value of that monomial at the point whose coordinates are the binary digits of j *)
Definition mono (m s j : nat) : F := \prod_(i < m | rbit i s) (rbit i j)%:R.
(* w lists the values of a polynomial of degree at most r in m variables, at all points of {0, 1}^m *)
Definition is_poly (r m : nat) (w : nat -> F) : Prop :=
  exists a : nat -> F, forall j, (j < 2 ^ m)%N -> w j = \sum_(0 <= s < 2 ^ m | (deg m s <= r)%N) a s * mono m s j.
End Spec.

(* ============================================================================= proofs *)
Lemma rbit_add i m s : (i < m)%N -> rbit i (s + 2 ^ m) = rbit i s.
Proof.
move=> lt; rewrite /rbit -(subnK (ltnW lt)) expnD addnC divnMDl ?expn_gt0 // oddD oddX orbF.
by rewrite subn_eq0 leqNgt lt.
Qed.
Lemma rbit_lo m s : (s < 2 ^ m)%N -> rbit m s = false. Proof. by move=> h; rewrite /rbit divn_small. Qed.
Lemma rbit_hi m s : (s < 2 ^ m)%N -> rbit m (s + 2 ^ m) = true.
Proof. by move=> h; rewrite /rbit divnDr // divn_small // divnn expn_gt0. Qed.

Lemma deg_lo m s : (s < 2 ^ m)%N -> deg m.+1 s = deg m s.
Proof. by move=> h; rewrite /deg big_ord_recr /= rbit_lo // addn0. Qed.
Lemma deg_hi m s : (s < 2 ^ m)%N -> deg m.+1 (s + 2 ^ m) = (deg m s).+1.
Proof.
move=> h; rewrite /deg big_ord_recr /= rbit_hi // addn1; congr _.+1; apply: eq_bigr => i _.
by rewrite rbit_add.
Qed.

Section Proofs.
Variable F : fieldType.
Notation vec := (seq F).
Notation mono := (mono F).

Lemma mono_ll m s j : (s < 2 ^ m)%N -> (j < 2 ^ m)%N -> mono m.+1 s j = mono m s j.
Proof. by move=> hs hj; rewrite /mono big_mkcond big_ord_recr /= rbit_lo // mulr1 -big_mkcond. Qed.
Lemma mono_lh m s j : (s < 2 ^ m)%N -> (j < 2 ^ m)%N -> mono m.+1 s (j + 2 ^ m) = mono m s j.
Proof.
move=> hs hj; rewrite /mono big_mkcond big_ord_recr /= rbit_lo // mulr1 -big_mkcond.
by apply: eq_bigr => i _; rewrite rbit_add.
Qed.
Lemma mono_hl m s j : (s < 2 ^ m)%N -> (j < 2 ^ m)%N -> mono m.+1 (s + 2 ^ m) j = 0.
Proof. by move=> hs hj; rewrite /mono big_mkcond big_ord_recr /= rbit_hi // rbit_lo // mulr0. Qed.
Lemma mono_hh m s j : (s < 2 ^ m)%N -> (j < 2 ^ m)%N -> mono m.+1 (s + 2 ^ m) (j + 2 ^ m) = mono m s j.
Proof.
move=> hs hj; rewrite /mono big_mkcond big_ord_recr /= !rbit_hi // mulr1 -big_mkcond.
by apply: eq_big => [i|i _]; rewrite !rbit_add.
Qed.

Lemma sum_half (m : nat) (P : pred nat) (f : nat -> F) :
  \sum_(0 <= s < 2 ^ m.+1 | P s) f s =
  \sum_(0 <= s < 2 ^ m | P s) f s + \sum_(0 <= s < 2 ^ m | P (s + 2 ^ m)%N) f (s + 2 ^ m)%N.
Proof.
rewrite (@big_cat_nat _ _ _ (2 ^ m)%N) ?leq_exp2l //=; congr (_ + _).
rewrite -{1}[(2 ^ m)%N]add0n big_addn expnS mul2n -addnn addnK; exact: eq_bigl.
Qed.

Definition below (r m : nat) (w : nat -> F) : Prop :=
  if r is r'.+1 then is_poly r' m w else forall j, (j < 2 ^ m)%N -> w j = 0.

Lemma poly_split r m (w : nat -> F) : is_poly r m.+1 w <->
  is_poly r m w /\ below r m (fun j => w (j + 2 ^ m)%N - w j).
Proof.
have half j : (j < 2 ^ m)%N -> ((j < 2 ^ m.+1) && (j + 2 ^ m < 2 ^ m.+1))%N by rewrite expnS; lia.
split.
  case=> a h; split.
    exists a => j hj; have /andP [hj' _] := half j hj; rewrite h // sum_half.
    rewrite [X in _ + X]big_nat_cond [X in _ + X]big1 ?addr0; last by move=> s /andP [/andP [_ hs] _]; rewrite mono_hl // mulr0.
    rewrite big_nat_cond [RHS]big_nat_cond; apply: eq_big => s.
      by case hs: (s < 2 ^ m)%N; rewrite ?andbF //= deg_lo.
    by case/andP => /andP [_ hs] _; rewrite mono_ll.
  have d j : (j < 2 ^ m)%N -> w (j + 2 ^ m)%N - w j =
      \sum_(0 <= s < 2 ^ m | (deg m s < r)%N) a (s + 2 ^ m)%N * mono m s j.
    move=> hj; have /andP [h1 h2] := half j hj; rewrite !h // !sum_half.
    rewrite [X in _ - (_ + X)]big_nat_cond [X in _ - (_ + X)]big1 ?addr0; last by move=> s /andP [/andP [_ hs] _]; rewrite mono_hl // mulr0.
    have -> : \sum_(0 <= s < 2 ^ m | (deg m.+1 s <= r)%N) a s * mono m.+1 s (j + 2 ^ m) =
              \sum_(0 <= s < 2 ^ m | (deg m.+1 s <= r)%N) a s * mono m.+1 s j; last first.
      rewrite addrAC subrr add0r big_nat_cond [RHS]big_nat_cond; apply: eq_big => s.
        by case hs: (s < 2 ^ m)%N; rewrite ?andbF //= deg_hi.
      by case/andP => /andP [_ hs] _; rewrite mono_hh.
    rewrite big_nat_cond [RHS]big_nat_cond; apply: eq_bigr => s /andP [/andP [_ hs] _]; by rewrite mono_lh // mono_ll.
  case: r {h} d => [|r] d /=.
    by move=> j hj; rewrite d // big1.
  by exists (fun s => a (s + 2 ^ m)%N).
case=> -[a ha] hb.
have [b hb' hr] : exists2 b, forall j, (j < 2 ^ m)%N -> w (j + 2 ^ m)%N - w j =
      \sum_(0 <= s < 2 ^ m | (deg m s < r)%N) b s * mono m s j & True.
  case: r {ha} hb => [|r] /= hb; last by case: hb => b hb; exists b.
  by exists (fun=> 0) => // j hj; rewrite hb // big1.
exists (fun s => if (s < 2 ^ m)%N then a s else b (s - 2 ^ m)%N) => j hj; rewrite sum_half.
have e1 i : \sum_(0 <= s < 2 ^ m | (deg m.+1 s <= r)%N) (if (s < 2 ^ m)%N then a s else b (s - 2 ^ m)%N) * mono m.+1 s i =
    \sum_(0 <= s < 2 ^ m | (deg m s <= r)%N) a s * mono m.+1 s i.
  rewrite big_nat_cond [RHS]big_nat_cond; apply: eq_big => s.
    by case hs: (s < 2 ^ m)%N; rewrite ?andbF //= deg_lo.
  by case/andP => /andP [_ hs] _; rewrite hs.
have e2 i : \sum_(0 <= s < 2 ^ m | (deg m.+1 (s + 2 ^ m) <= r)%N)
      (if (s + 2 ^ m < 2 ^ m)%N then a (s + 2 ^ m)%N else b (s + 2 ^ m - 2 ^ m)%N) * mono m.+1 (s + 2 ^ m) i =
    \sum_(0 <= s < 2 ^ m | (deg m s < r)%N) b s * mono m.+1 (s + 2 ^ m) i.
  rewrite big_nat_cond [RHS]big_nat_cond; apply: eq_big => s.
    by case hs: (s < 2 ^ m)%N; rewrite ?andbF //= deg_hi.
  by case/andP => /andP [_ hs] _; rewrite addnK ltnNge leq_addl.
rewrite e1 e2; case: (ltnP j (2 ^ m)) => [lj|gj].
  rewrite [X in _ + X]big_nat_cond [X in _ + X]big1 ?addr0; last by move=> s /andP [/andP [_ hs] _]; rewrite mono_hl // mulr0.
  rewrite ha // big_nat_cond [RHS]big_nat_cond; apply: eq_bigr => s /andP [/andP [_ hs] _]; by rewrite mono_ll.
have lj : (j - 2 ^ m < 2 ^ m)%N by move: hj; rewrite expnS; lia.
have ej : j = (j - 2 ^ m + 2 ^ m)%N by rewrite subnK.
move: (j - 2 ^ m)%N lj ej => k lk ->.
have -> : w (k + 2 ^ m)%N = w k + (w (k + 2 ^ m)%N - w k) by rewrite addrC subrK.
rewrite hb' // ha //; congr (_ + _).
  by rewrite big_nat_cond [RHS]big_nat_cond; apply: eq_bigr => s /andP [/andP [_ hs] _]; rewrite mono_lh.
by rewrite big_nat_cond [RHS]big_nat_cond; apply: eq_bigr => s /andP [/andP [_ hs] _]; rewrite mono_hh.
Qed.

Lemma poly_full r m (w : nat -> F) : (m <= r)%N -> is_poly r m w.
Proof.
elim: m r w => [|m IH] r w le.
  exists (fun=> w 0%N) => -[|j] // _; rewrite big_mkcond big_nat1 /deg big_ord0 leq0n /mono big1 ?mulr1 //.
  by case.
by apply/poly_split; split; [apply: IH; lia | case: r le => // r le; apply: IH].
Qed.
Lemma poly_const m (w : nat -> F) : is_poly 0 m w <-> forall j, (j < 2 ^ m)%N -> w j = w 0%N.
Proof.
elim: m w => [|m IH] w; first by split=> [_ [|j]|_] //; apply: poly_full.
have p : (0 < 2 ^ m)%N by rewrite expn_gt0.
split=> [/poly_split [/IH h1 h2] j hj | h].
  case: (ltnP j (2 ^ m)) => [|g]; first exact: h1.
  have lj : (j - 2 ^ m < 2 ^ m)%N by move: hj; rewrite expnS; lia.
  by rewrite -(h1 _ lj) -{1}(subnK g); apply/eqP; rewrite -subr_eq0; apply/eqP; apply: h2.
apply/poly_split; split=> [|j hj].
  by apply/IH => j hj; apply: h; move: hj; rewrite expnS; lia.
by rewrite (h j) ?h ?subrr // expnS; lia.
Qed.
Lemma poly_ext r m (w w' : nat -> F) : (forall j, (j < 2 ^ m)%N -> w j = w' j) -> is_poly r m w -> is_poly r m w'.
Proof. by move=> e [a h]; exists a => j hj; rewrite -e // h. Qed.

Lemma rm_wf r m : (r <= m)%N -> wf (2 ^ m) (rm_generator F r m).
Proof. by move=> le; have [] := rm_good F le. Qed.

Theorem rm_span r m (w : vec) : (r <= m)%N -> size w = (2 ^ m)%N ->
  (rv (2 ^ m) w <= sp (2 ^ m) (rm_generator F r m))%MS <-> is_poly r m (nth 0 w).
Proof.
elim: m r w => [|m IH] [|r] w le sw //.
- rewrite (sp_ones sw); split=> [_|_]; first exact: poly_full.
  by case: w sw => [|x []] // _; exists x.
- rewrite [rm_generator _ _ _]/= (sp_ones sw) poly_const; split=> [[a ->] j hj | h].
    by rewrite !nth_nseq hj expn_gt0.
  by exists (nth 0 w 0); apply: (@eq_from_nth _ 0); rewrite ?size_nseq // sw => j hj; rewrite nth_nseq hj h.
rewrite [rm_generator _ _ _]/=; case: eqP => [e|ne].
  split=> _; first by apply: poly_full; lia.
  by rewrite /sp size_idl mx_idl submx1.
have lt : (r < m)%N by lia.
have e2 : (2 ^ m.+1 = 2 ^ m + 2 ^ m)%N by rewrite expnS; lia.
rewrite e2 in sw *; rewrite (step_span _ (rm_wf lt) sw) poly_split /=; split.
  case=> u [b [su sb /(IH _ _ lt su) hu /(IH _ _ (ltnW lt) sb) hb ->]]; split.
    by apply: poly_ext hu => j hj; rewrite nth_cat su hj.
  apply: poly_ext hb => j hj; rewrite !nth_cat su hj ltnNge leq_addl /= addnK nth_vadd ?su ?sb //.
  by rewrite addrAC subrr add0r.
case=> hu hb; set u := take (2 ^ m) w; set v := drop (2 ^ m) w.
have su : size u = (2 ^ m)%N by rewrite size_takel ?sw ?leq_addr.
have sv : size v = (2 ^ m)%N by rewrite size_drop sw addnK.
have sb : size (vsub v u) = (2 ^ m)%N by rewrite size_vsub ?sv ?su.
exists u, (vsub v u); split=> //.
- by apply/IH => //; apply: poly_ext hu => j hj; rewrite nth_take.
- apply/(IH _ _ (ltnW lt)) => //; apply: poly_ext hb => j hj.
  by rewrite nth_vsub ?sv ?su // nth_drop nth_take // addnC.
rewrite -[LHS](cat_take_drop (2 ^ m)); congr (_ ++ _); apply: (@eq_from_nth _ 0).
  by rewrite size_vadd ?sb ?su.
move=> j hj; rewrite nth_vadd ?sb ?su // nth_vsub ?sv ?su // addrC subrK //.
Qed.

(* ---- the dual code *)
Definition sdot (n : nat) (u v : nat -> F) : F := \sum_(0 <= j < n) u j * v j.

Lemma poly_orth r s m (u v : nat -> F) : 2%:R = 0 :> F -> (r + s < m)%N -> is_poly r m u -> is_poly s m v -> sdot (2 ^ m) u v = 0.
Proof.
move=> c2; elim: m r s u v => // m IH r s u v lt /poly_split [hu hu'] /poly_split [hv hv'].
rewrite /sdot sum_half.
set u' := fun j => u (j + 2 ^ m)%N - u j in hu'; set v' := fun j => v (j + 2 ^ m)%N - v j in hv'.
have ortL f g : below r m f -> is_poly s m g -> sdot (2 ^ m) f g = 0.
  case: r {hu hu'} lt => [|r] lt /= hf hg; last by apply: (IH r s) => //; lia.
  by rewrite /sdot big_nat_cond big1 // => j /andP [hj _]; rewrite hf ?mul0r.
have ortR f g : is_poly r m f -> below s m g -> sdot (2 ^ m) f g = 0.
  case: s {hv hv' ortL} lt => [|s] lt /= hf hg; last by apply: (IH r s) => //; lia.
  by rewrite /sdot big_nat_cond big1 // => j /andP [hj _]; rewrite hg ?mulr0.
have ortB : sdot (2 ^ m) u' v' = 0.
  case: r {hu ortR} lt hu' ortL => [|r] lt /= hu' ortL.
    by rewrite /sdot big_nat_cond big1 // => j /andP [hj _]; rewrite hu' ?mul0r.
  case: s {hv ortL} lt hv' => [|s] lt /= hv'; last by apply: (IH r s) => //; lia.
  by rewrite /sdot big_nat_cond big1 // => j /andP [hj _]; rewrite hv' ?mulr0.
have -> : \sum_(0 <= j < 2 ^ m) u (j + 2 ^ m)%N * v (j + 2 ^ m)%N =
    \sum_(0 <= j < 2 ^ m) u j * v j + (sdot (2 ^ m) u' v + sdot (2 ^ m) u v' + sdot (2 ^ m) u' v').
  rewrite /sdot -!big_split /=; apply: eq_bigr => j _.
  rewrite -[u (j + 2 ^ m)%N](subrK (u j)) -[v (j + 2 ^ m)%N](subrK (v j)) -/(u' j) -/(v' j).
  by ring.
rewrite ortL // ortR // ortB !addr0; set x := \sum_(_ <= _ < _) _.
by rewrite -[x]mul1r -mulrDl -[1 + 1]/(2%:R) c2 mul0r.
Qed.

Lemma rm_rank r m : (r <= m)%N -> \rank (sp (2 ^ m) (rm_generator F r m)) = size (rm_generator F r m).
Proof. by move=> le; have [_ /eqP -> _ _ _] := rm_good F le. Qed.

Lemma rm_sizes r m : (r < m)%N -> (size (rm_generator F r m) + size (rm_generator F (m - r.+1) m) = 2 ^ m)%N.
Proof.
move=> lt; rewrite !rm_size; [|lia|lia].
have -> : (\sum_(i < (m - r.+1).+1) 'C(m, i) = \sum_(r.+1 <= i < m.+1) 'C(m, i))%N.
  rewrite -(big_mkord xpredT (fun i => 'C(m, i))) big_nat_rev /= add0n.
  rewrite [RHS](_ : _ = \sum_(0 + r.+1 <= i < m.+1) 'C(m, i))%N // big_addn; have -> : (m.+1 - r.+1 = (m - r.+1).+1)%N by lia.
  rewrite big_nat_cond [RHS]big_nat_cond; apply: eq_bigr => i /andP [/andP [_ hi] _].
  by rewrite -[RHS]bin_sub; [congr 'C(_, _); lia | lia].
rewrite -(big_mkord xpredT (fun i => 'C(m, i))) -big_cat_nat //=; last by lia.
rewrite big_mkord -[2%N]/(1 + 1)%N expnDn; apply: eq_bigr => i _; by rewrite !exp1n !muln1.
Qed.

Lemma mx_orth n (A B : seq vec) : wf n A -> wf n B ->
  (forall u v, u \in A -> v \in B -> sdot n (nth 0 u) (nth 0 v) = 0) -> sp n A *m (sp n B)^T = 0.
Proof.
move=> wA wB h; apply/matrixP => i j; rewrite !mxE -[RHS](h (nth [::] A i) (nth [::] B j)) ?mem_nth //.
by rewrite /sdot big_mkord; apply: eq_bigr => k _; rewrite !mxE.
Qed.

Theorem rm_dual_space r m : 2%:R = 0 :> F -> (r < m)%N ->
  (kermx (sp (2 ^ m) (rm_generator F r m))^T :=: sp (2 ^ m) (rm_generator F (m - r.+1) m))%MS.
Proof.
move=> c2 lt; have le1 : (r <= m)%N by lia.
have le2 : (m - r.+1 <= m)%N by lia.
set A := rm_generator F r m; set B := rm_generator F _ m.
have wA : wf (2 ^ m) A by apply: rm_wf.
have wB : wf (2 ^ m) B by apply: rm_wf.
apply: eqmx_sym; apply/eqmxP; rewrite -(geq_leqif (mxrank_leqif_eq _)).
  by rewrite mxrank_ker mxrank_tr !rm_rank // -(rm_sizes lt) addKn.
apply/sub_kermxP; apply: mx_orth => // u v hu hv.
apply: (@poly_orth (m - r.+1) r) => //; first by lia.
  by apply/rm_span; rewrite ?(wfP _ _ wB) //; apply: mem_sp.
by apply/rm_span; rewrite ?(wfP _ _ wA) //; apply: mem_sp.
Qed.

Lemma generator_rm r m c d : reed_muller F r m = Some (c, d) ->
  [/\ (0 < r <= m)%N, cc_n c = (2 ^ m)%N, cc_mat c = null_space (2 ^ m) (rm_generator F r m), cc_gen c = None & d = Dist (2 ^ (m - r))].
Proof.
rewrite /reed_muller; case: ifP => // /norP [h1 h2] [<- <-]; split=> //.
by rewrite lt0n h2 leqNgt.
Qed.

Theorem rm_dual r m c d c' d' : 2%:R = 0 :> F -> (r < m)%N ->
  reed_muller F r m = Some (c, d) -> reed_muller F (m - r.+1) m = Some (c', d') ->
  cc_n (dual c) = cc_n c' /\ cc_mat (dual c) = cc_mat c'.
Proof.
move=> c2 lt /generator_rm [h1 n1 m1 g1 _] /generator_rm [h2 n2 m2 g2 _].
have le1 : (r <= m)%N by lia.
have le2 : (m - r.+1 <= m)%N by lia.
rewrite /dual /mkcode /= n1 n2; split=> //; rewrite /generator g1 n1 m1 m2.
have [r1 s1] := null_space_spec (wf_null_space (rm_wf le1)).
have [r2 s2] := null_space_spec (rm_wf le2).
apply: (rref_unique r1 r2); apply: (eqmx_trans (sp_null_null (rm_wf le1))).
apply: eqmx_sym; apply: (eqmx_trans s2).
have := @rm_dual_space (m - r.+1) m c2; have -> : (m - (m - r.+1).+1 = r)%N by lia.
apply; lia.
Qed.
End Proofs.

Section Words.
Variable F : fieldType.

Lemma poly_ones r m : is_poly r m (fun=> 1 : F).
Proof.
exists (fun s => (s == 0%N)%:R) => j hj.
rewrite big_mkcond (bigD1_seq 0%N) ?iota_uniq ?mem_index_iota ?expn_gt0 //=.
have -> : (deg m 0 <= r)%N by rewrite /deg big1 // => i _; rewrite /rbit div0n.
rewrite mul1r big1_seq ?addr0; last by move=> s /andP [/negPf -> _]; rewrite mul0r if_same.
by rewrite /mono big1 // => i; rewrite /rbit div0n.
Qed.

Theorem rm_words r m c d (w : seq F) : reed_muller F r m = Some (c, d) -> size w = (2 ^ m)%N ->
  is_word (cc_n c) (cc_mat c) w <-> is_poly r m (nth 0 w).
Proof.
move=> e sw; have [h _ _ _ _] := generator_rm e; have [c' [e' _ _ _ [_ hw]]] := rm_ok F h.
rewrite e in e'; case: e' => ec _; subst c'; rewrite hw // combP //; apply: rm_span => //.
by case/andP: h.
Qed.

Theorem rm_dual_words r m c d (w : seq F) : 2%:R = 0 :> F -> (r < m)%N -> reed_muller F r m = Some (c, d) -> size w = (2 ^ m)%N ->
  is_word (cc_n (dual c)) (cc_mat (dual c)) w <-> is_poly (m - r.+1) m (nth 0 w).
Proof.
move=> c2 lt e sw; have [h n1 m1 g1 _] := generator_rm e.
have le1 : (r <= m)%N by lia.
have le2 : (m - r.+1 <= m)%N by lia.
rewrite -rm_span // -(rm_dual_space c2 lt) /dual /mkcode /= n1 /generator g1 n1 m1.
have wN := wf_null_space (rm_wf F le1); have [_ s1] := null_space_spec (rm_wf F le1).
by rewrite (is_word_null (wf_null_space wN) sw) (sp_null_null wN) s1.
Qed.

Theorem rm_dual_char r m c d c' d' : (r < m)%N -> reed_muller F r m = Some (c, d) -> reed_muller F (m - r.+1) m = Some (c', d') ->
  (forall w, is_word (cc_n (dual c)) (cc_mat (dual c)) w <-> is_word (cc_n c') (cc_mat c') w) <-> 2%:R = 0 :> F.
Proof.
move=> lt e e'; have [h1 n1 _ _ _] := generator_rm e; have [h2 n2 _ _ _] := generator_rm e'; split=> [h | c2 w]; last first.
  by have [-> ->] := rm_dual c2 lt e e'.
have [c1 [ec _ ok _ _]] := rm_ok F h1; rewrite e in ec; case: ec => ec _; subst c1.
have ones k x t : reed_muller F k m = Some (x, t) -> is_word (cc_n x) (cc_mat x) (nseq (2 ^ m) 1).
  move=> ex; apply/(rm_words ex); rewrite ?size_nseq //.
  by apply: poly_ext (poly_ones k m) => j hj; rewrite nth_nseq hj.
have := proj2 (h _) (ones _ _ _ e').
have on := ones _ _ _ e; rewrite n1 in on.
rewrite (dual_words_ok ok) ?size_nseq ?n1 // => /(_ _ on).
rewrite (eq_bigr (fun=> 1)); last by move=> i _; rewrite !nth_nseq ltn_ord mulr1.
by rewrite sumr_const card_ord natrX => /eqP; rewrite expf_eq0 => /andP [_ /eqP].
Qed.
End Words.
