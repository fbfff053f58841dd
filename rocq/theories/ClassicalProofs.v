(* Proofs about the model of ClassicalCode. *)
From mathcomp Require Import all_ssreflect all_algebra zify.
From mathcomp Require Import mxtens.
From Verif Require Import LinAlg RowReduce Kron Classical.
Set Implicit Arguments.
Unset Strict Implicit.
Unset Printing Implicit Defensive.
Import GRing.Theory.
Local Open Scope ring_scope.

Section Bridge.
Variable F : fieldType.
Notation vec := (seq F).
Notation mat := (seq (seq F)).

(* a row vector as a list *)
Definition lrv n (v : 'rV[F]_n) : vec := [seq v 0 i | i <- enum 'I_n].
Lemma size_lrv n (v : 'rV[F]_n) : size (lrv v) = n.
Proof. by rewrite size_map size_enum_ord. Qed.
Lemma rv_lrv n (v : 'rV[F]_n) : rv n (lrv v) = v.
Proof.
apply/rowP => j; rewrite mxE (nth_map j) ?size_enum_ord //; congr (v _ _).
by apply: val_inj; rewrite /= nth_enum_ord.
Qed.
Lemma lrv_rv n (v : vec) : size v = n -> lrv (rv n v) = v.
Proof. by move=> sv; apply: (@rv_inj _ n); rewrite ?size_lrv // rv_lrv. Qed.

Lemma is_wordE n (H : mat) (w : vec) : size w = n -> is_word n H w <-> rv n w *m (sp n H)^T = 0.
Proof.
move=> sw; split=> [[_ h] | h].
  apply/rowP => i; rewrite !mxE -[RHS](h _ (mem_nth [::] (ltn_ord i))).
  by apply: eq_bigr => j _; rewrite !mxE mulrC.
split=> // r rH; have lt_i : (index r H < size H)%N by rewrite index_mem.
have := congr1 (fun M : 'rV[F]_(size H) => M 0 (Ordinal lt_i)) h; rewrite !mxE => e.
by rewrite -[RHS]e; apply: eq_bigr => j _; rewrite !mxE /ent /= nth_index // mulrC.
Qed.

Lemma is_word_null n (H : mat) (w : vec) : wf n H -> size w = n ->
  is_word n H w <-> (rv n w <= sp n (null_space n H))%MS.
Proof.
move=> wH sw; split=> [/(is_wordE _ sw) h | /(null_spaceP _ wH) h]; first exact/(null_spaceP _ wH).
exact/(is_wordE _ sw).
Qed.

Lemma is_combE n (G : mat) (c v : vec) : size c = size G -> size v = n ->
  is_comb n G c v <-> rv n v = rv (size G) c *m sp n G.
Proof.
move=> sc sv; split=> [[_ _ h] | h].
  by apply/rowP => j; rewrite !mxE h //; apply: eq_bigr => i _; rewrite !mxE.
split=> // j lt_j; have := congr1 (fun M : 'rV[F]_n => M 0 (Ordinal lt_j)) h; rewrite !mxE => ->.
by apply: eq_bigr => i _; rewrite !mxE.
Qed.

(* orthogonal complements *)
Lemma orth_orth m n (A : 'M[F]_(m, n)) : (A :=: kermx (kermx A^T)^T)%MS.
Proof.
apply/eqmxP; have sub : (A <= kermx (kermx A^T)^T)%MS.
  by apply/sub_kermxP; rewrite -[A in A *m _]trmxK -trmx_mul mulmx_ker trmx0.
rewrite sub -(geq_leqif (mxrank_leqif_sup sub)) mxrank_ker mxrank_tr mxrank_ker mxrank_tr.
by rewrite /= subKn ?rank_leq_col ?leqnn.
Qed.

Lemma kermx_tr_eq m1 m2 n (A : 'M[F]_(m1, n)) (B : 'M[F]_(m2, n)) :
  (kermx A^T :=: kermx B^T)%MS -> (A :=: B)%MS.
Proof.
move=> e; apply: eqmx_trans (orth_orth A) _; apply: eqmx_sym; apply: eqmx_trans (orth_orth B) _.
have sub p q (X : 'M[F]_(p, n)) (Y : 'M[F]_(q, n)) : (Y <= X)%MS -> (kermx X^T <= kermx Y^T)%MS.
  move=> /submxP [D ->]; apply/sub_kermxP; by rewrite trmx_mul mulmxA mulmx_ker mul0mx.
by apply/eqmxP; apply/andP; split; apply: sub; rewrite e.
Qed.

Lemma kermx_tr_sub m1 m2 n (A : 'M[F]_(m1, n)) (B : 'M[F]_(m2, n)) :
  (A :=: B)%MS -> (kermx A^T :=: kermx B^T)%MS.
Proof.
move=> e; have sub p q (X : 'M[F]_(p, n)) (Y : 'M[F]_(q, n)) : (Y <= X)%MS -> (kermx X^T <= kermx Y^T)%MS.
  move=> /submxP [D ->]; apply/sub_kermxP; by rewrite trmx_mul mulmxA mulmx_ker mul0mx.
by apply/eqmxP; apply/andP; split; apply: sub; rewrite e.
Qed.

(* bases *)
Lemma basis_intro n (H G : mat) : wf n G -> row_free (sp n G) -> (sp n G :=: kermx (sp n H)^T)%MS ->
  is_basis n H G.
Proof.
move=> wG fr e; split.
- move=> g gG; have sg : size g = n by move/wfP: wG; apply.
  by apply/(is_wordE _ sg)/sub_kermxP; rewrite -e mem_sp.
- move=> w hw; have sw : size w = n by case: hw.
  have /submxP [D def_w] : (rv n w <= sp n G)%MS by rewrite e; apply/sub_kermxP/(is_wordE _ sw).
  exists (lrv D); apply/is_combE; rewrite ?size_lrv //; by rewrite rv_lrv.
- move=> c c' w h h'; have [sc sw _] := h; have [sc' _ _] := h'.
  apply: (@rv_inj _ (size G)) => //; apply: (row_free_inj fr).
  by move/(is_combE sc sw): h => <-; move/(is_combE sc' sw): h' => <-.
Qed.

Lemma basis_elim n (H G : mat) : wf n G -> is_basis n H G ->
  row_free (sp n G) /\ (sp n G :=: kermx (sp n H)^T)%MS.
Proof.
move=> wG [h1 h2 h3]; split.
  rewrite -kermx_eq0; apply/eqP/row_matrixP => i; rewrite row0.
  set c := row i _; have c0 : c *m sp n G = 0 by rewrite /c -row_mul mulmx_ker row0.
  have z : is_comb n G (lrv (0 : 'rV[F]_(size G))) (vzero F n).
    by apply/is_combE; rewrite ?size_lrv ?size_vzero // rv_lrv mul0mx rv_zero.
  have z' : is_comb n G (lrv c) (vzero F n).
    by apply/is_combE; rewrite ?size_lrv ?size_vzero // rv_lrv c0 rv_zero.
  by rewrite -[c]rv_lrv (h3 _ _ _ z' z) rv_lrv.
apply/eqmxP; apply/andP; split.
  apply/sp_subP => g gG; have sg : size g = n by move/wfP: wG; apply.
  by apply/sub_kermxP/(is_wordE _ sg); apply: h1.
apply/rV_subP => v /sub_kermxP hv.
have sv := size_lrv v; have hw : is_word n H (lrv v) by apply/(is_wordE _ sv); rewrite rv_lrv.
have [c hc] := h2 _ hw; have [sc _ _] := hc.
move/(is_combE sc sv): hc; rewrite rv_lrv => ->; exact: submxMl.
Qed.

Lemma null_basis n (H : mat) : wf n H -> is_basis n H (null_space n H).
Proof.
move=> wH; have [r e] := null_space_spec wH.
by apply: basis_intro => //; [apply: wf_null_space | apply: rref_free].
Qed.

Lemma basis_wf n (H G : mat) : is_basis n H G -> wf n G.
Proof. by case=> h _ _; apply/wfP => g /h []. Qed.

Lemma basis_size n (H G : mat) : is_basis n H G -> size G = (n - \rank (sp n H))%N.
Proof.
move=> b; have [fr e] := basis_elim (basis_wf b) b.
by move: fr; rewrite /row_free e mxrank_ker mxrank_tr => /eqP.
Qed.

Lemma has_dimE n (H : mat) k : wf n H -> has_dim n H k <-> k = (n - \rank (sp n H))%N.
Proof.
move=> wH; split=> [[G [b <-]] | ->]; first exact: basis_size b.
by exists (null_space n H); split; [apply: null_basis | rewrite size_null_space].
Qed.

End Bridge.

Section Proofs.
Variable F : fieldType.
Notation vec := (seq F).
Notation mat := (seq (seq F)).

Lemma containsE (c : ccode F) (w : vec) : wf (cc_n c) (cc_mat c) -> size w = cc_n c ->
  contains c w <-> is_word (cc_n c) (cc_mat c) w.
Proof.
case: c => n H g d /= wH sw; rewrite /contains /= -(rv_eq0 (size_mulmv H w)).
have -> : rv (size H) (mulmv H w) = rv n w *m (sp n H)^T.
  apply: (can_inj (@trmxK _ _ _)); rewrite -cvE (@cv_mulmv _ _ n) // trmx_mul trmxK; congr (_ *m _).
  by rewrite cvE.
split=> [/eqP h | /(is_wordE _ sw) ->]; [exact/(is_wordE _ sw) | by []].
Qed.

Lemma canon_words n (H : mat) (w : vec) : wf n H -> is_word n (canon n H) w <-> is_word n H w.
Proof.
move=> wH.
suff e : size w = n -> is_word n (canon n H) w <-> is_word n H w.
  by split=> h; (have sw : size w = n by case: h); apply/e.
move=> sw; rewrite !is_wordE //.
have e := kermx_tr_sub (sp_canon wH).
by split=> /sub_kermxP h; apply/sub_kermxP; move: h; rewrite e.
Qed.

Lemma dimension_mk n (H : mat) : wf n H -> dimension (mkcode n H) = (n - \rank (sp n H))%N.
Proof. by move=> wH; rewrite /dimension /rank /= size_canon. Qed.

Lemma equivP n m (A B : mat) : wf n A -> wf m B ->
  equiv (mkcode n A) (mkcode m B) <-> (n = m /\ forall w, is_word n A w <-> is_word m B w).
Proof.
move=> wA wB; rewrite /equiv /=; split.
  case/andP => /eqP enm /eqP eAB; subst m; split=> // w.
  by rewrite -canon_words // eAB canon_words.
case=> enm h; subst m; rewrite eqxx /=; apply/eqP.
apply: (rref_unique (canon_rref wA) (canon_rref wB)).
apply: eqmx_trans (sp_canon wA) _; apply: eqmx_trans (eqmx_sym (sp_canon wB)).
apply: kermx_tr_eq; apply/eqmxP; apply/andP; split; apply/rV_subP => v /sub_kermxP hv; apply/sub_kermxP.
  have sv := size_lrv v; rewrite -[v]rv_lrv; apply/(is_wordE _ sv)/h/(is_wordE _ sv); by rewrite rv_lrv.
have sv := size_lrv v; rewrite -[v]rv_lrv; apply/(is_wordE _ sv)/h/(is_wordE _ sv); by rewrite rv_lrv.
Qed.

(* iter_words *)
Lemma mem_product (el : vec) k (v : vec) : (v \in product el k) = (size v == k) && all (fun x => x \in el) v.
Proof.
elim: k v => [|k IH] v /=; first by rewrite inE; case: v.
apply/flattenP/idP => [[s /mapP [x xel ->] /mapP [u]] | ].
  by rewrite IH => /andP [/eqP su hu] -> /=; rewrite su eqxx xel.
case: v => [|x v] //=; rewrite eqSS => /andP [sv /andP [xel hv]].
exists [seq x :: u | u <- product el k]; first by apply: map_f.
by apply: map_f; rewrite IH sv.
Qed.

Lemma uniq_product (el : vec) k : uniq el -> uniq (product el k).
Proof.
move=> uel; elim: k => [|k IH] //=; move: (product el k) IH => P uP.
elim: el uel => [|x el' IHel] //= /andP [xn uel'].
rewrite cat_uniq IHel // andbT map_inj_uniq ?uP /=; last by move=> u v [].
apply/hasPn => v /flattenP [s /mapP [y yel ->] /mapP [u _ ->]].
by apply/negP => /mapP [u' _ [e _]]; move: xn; rewrite -e yel.
Qed.

Lemma size_vmulm n (v : vec) (G : mat) : size (vmulm n v G) = n.
Proof. by rewrite size_map size_trl. Qed.

Lemma rv_vmulm n (v : vec) (G : mat) : size v = size G -> rv n (vmulm n v G) = rv (size G) v *m sp n G.
Proof.
move=> sv; apply/rowP => j; rewrite !mxE (nth_map [::]) ?size_trl // nth_trl //.
rewrite (@dotE _ (size G)) ?size_map //; apply: eq_bigr => i _.
by rewrite !mxE (nth_map [::]).
Qed.

Lemma vmulm_comb n (v : vec) (G : mat) : size v = size G -> is_comb n G v (vmulm n v G).
Proof. by move=> sv; apply/is_combE; rewrite ?size_vmulm // rv_vmulm. Qed.

Lemma is_comb_vmulm n (c v : vec) (G : mat) : is_comb n G c v -> v = vmulm n c G.
Proof.
move=> h; have [sc sv _] := h; apply: (@rv_inj _ n); rewrite ?size_vmulm // rv_vmulm //.
exact/(is_combE sc sv).
Qed.

Lemma iter_words_mem n (H G : mat) (el : vec) (w : vec) : (forall x : F, x \in el) -> is_basis n H G ->
  (w \in [seq vmulm n v G | v <- product el (size G)]) <-> is_word n H w.
Proof.
move=> full b; have wG := basis_wf b; have [fr e] := basis_elim wG b.
split=> [/mapP [v] | hw].
  rewrite mem_product => /andP [/eqP sv _] ->.
  have sw : size (vmulm n v G) = n by rewrite size_vmulm.
  apply/(is_wordE _ sw)/sub_kermxP; rewrite rv_vmulm // -e; exact: submxMl.
have [_ h2 _] := b; have [c hc] := h2 _ hw; have [sc _ _] := hc.
rewrite (is_comb_vmulm hc); apply: map_f; rewrite mem_product sc eqxx /=.
by apply/allP => x _.
Qed.

Lemma iter_words_uniq n (H G : mat) (el : vec) : uniq el -> is_basis n H G ->
  uniq [seq vmulm n v G | v <- product el (size G)].
Proof.
move=> uel [_ _ b]; rewrite map_inj_in_uniq ?uniq_product // => u v.
rewrite !mem_product => /andP [/eqP su _] /andP [/eqP sv _] e.
by apply: (b _ _ (vmulm n u G)); [apply: vmulm_comb | rewrite e; apply: vmulm_comb].
Qed.

Lemma product_head (el : vec) k : product (0 :: el) k = nseq k 0 :: behead (product (0 :: el) k).
Proof.
elim: k => [|k] //=; by case: (product (0 :: el) k) => [|p P] //= [->].
Qed.

(* dual *)
Lemma dual_words n (H : mat) (w : vec) : wf n H -> size w = n ->
  is_word n (null_space n H) w <-> (forall y, is_word n H y -> \sum_(j < n) nth 0 w j * nth 0 y j = 0).
Proof.
move=> wH sw; split=> [[_ h] y hy | h].
  have sy : size y = n by case: hy.
  have /submxP [D e] := proj1 (is_word_null wH sy) hy.
  have /(is_wordE _ sw) h0 : is_word n (null_space n H) w by split.
  have : rv n w *m (rv n y)^T = 0 by rewrite e trmx_mul mulmxA h0 mul0mx.
  move/matrixP/(_ 0 0); rewrite !mxE => e'; rewrite -[RHS]e'.
  by apply: eq_bigr => j _; rewrite !mxE.
split=> // r rN; have [bw _ _] := null_basis wH.
by rewrite -[RHS](h _ (bw _ rN)); apply: eq_bigr => j _; rewrite mulrC.
Qed.

Lemma sp_null_null n (H : mat) : wf n H -> (sp n (null_space n (null_space n H)) :=: sp n H)%MS.
Proof.
move=> wH; have wN := wf_null_space wH.
have [_ e1] := null_space_spec wN; have [_ e2] := null_space_spec wH.
apply: eqmx_trans e1 _; apply: eqmx_trans (kermx_tr_sub e2) _; apply: eqmx_sym; exact: orth_orth.
Qed.

Lemma from_generator_words n (G : mat) (w : vec) : wf n G -> size w = n ->
  is_word n (cc_mat (from_generator n G)) w <-> exists c, is_comb n G c w.
Proof.
move=> wG sw; rewrite /= is_wordE //.
have [_ e1] := null_space_spec wG.
have eG : (sp n G :=: kermx (sp n (null_space n G))^T)%MS.
  by apply: eqmx_trans (orth_orth (sp n G)) _; apply: eqmx_sym; apply: kermx_tr_sub.
split=> [/sub_kermxP | [c hc]].
  rewrite -eG => /submxP [D e]; exists (lrv D); apply/is_combE; rewrite ?size_lrv //; by rewrite rv_lrv.
have [sc _ _] := hc; apply/sub_kermxP; rewrite -eG.
by move/(is_combE sc sw): hc => ->; apply: submxMl.
Qed.

Lemma wf_from_generator n (G : mat) : wf n G -> wf n (cc_mat (from_generator n G)).
Proof. by move=> wG /=; apply: wf_null_space. Qed.

End Proofs.
