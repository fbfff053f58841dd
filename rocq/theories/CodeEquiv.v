(* Codes that agree up to permutations of qudits and checks have the same parameters. *)
From mathcomp Require Import all_ssreflect all_fingroup all_algebra zify.
From Verif Require Import LinAlg RowReduce Kron Classical Symplectic Quantum QuantumProofs.
From Verif Require Import Css CssProofs Product PermGroup Abelian GroupRing RingArray BBLayout QCPoly QuasiCyclic ToricLayout.
Set Implicit Arguments.
Unset Strict Implicit.
Unset Printing Implicit Defensive.
Import GRing.Theory.
Local Open Scope ring_scope.

Section Perms.
Variable F : fieldType.

Lemma bij_perm n f : bij_on n f -> exists s : 'S_n, forall i : 'I_n, s i = f i :> nat.
Proof.
move=> [lt inj]; pose g (i : 'I_n) : 'I_n := Ordinal (lt i (ltn_ord i)).
have gi : injective g by move=> i j /(congr1 val) /= e; apply/val_inj; apply: inj => //=.
by exists (fingroup.perm.perm gi) => i; rewrite permE.
Qed.

Lemma bij_mx m n (A A' : mat F) f pi (s : F) : bij_on m f -> bij_on n pi ->
  (forall i j, (i < m)%N -> (j < n)%N -> ent A' (f i) (pi j) = s * ent A i j) ->
  exists (u : 'S_m) (v : 'S_n), (forall j, v j = pi j :> nat) /\ s *: mx m n A = perm_mx u *m mx m n A' *m perm_mx v^-1.
Proof.
move=> /bij_perm [u hu] /bij_perm [v hv] h; exists u, v; split=> //.
by rewrite -row_permE -col_permE; apply/matrixP => i j; rewrite !mxE hu hv h.
Qed.

Lemma sign_nz (s : F) : s = 1 \/ s = -1 -> s != 0.
Proof. by case=> ->; rewrite ?oppr_eq0 oner_neq0. Qed.

Lemma bij_rank m n (A A' : mat F) f pi (s : F) : bij_on m f -> bij_on n pi -> s = 1 \/ s = -1 ->
  (forall i j, (i < m)%N -> (j < n)%N -> ent A' (f i) (pi j) = s * ent A i j) -> \rank (mx m n A') = \rank (mx m n A).
Proof.
move=> bf bp /sign_nz s0 /(bij_mx bf bp) [u [v [_ e]]].
have -> : \rank (mx m n A) = \rank (s *: mx m n A) by rewrite (eqmx_scale _ s0).
by rewrite e mxrankMfree ?row_free_unit ?unitmx_perm // eqmxMfull // row_full_unit unitmx_perm.
Qed.

Lemma sp_mx n m (A : mat F) : size A = m -> \rank (sp n A) = \rank (mx m n A).
Proof. by move=> <-. Qed.

Theorem perm_equiv_rank (c c' : csscode F) : wf (c_n c) (c_x c) -> wf (c_n c) (c_z c) -> wf (c_n c') (c_x c') -> wf (c_n c') (c_z c') ->
  perm_equiv c c' -> c_rank c' = c_rank c.
Proof.
move=> wx wz wx' wz' [en ex ez [fx [fz [pi [s [bx bz bp hs h]]]]]]; rewrite en in wx' wz'.
rewrite /c_rank en !size_canon // (sp_mx _ ex) (sp_mx _ ez); congr (_ + _)%N.
  apply: (bij_rank (s := 1) bx bp); first by left.
  by move=> i j hi hj; rewrite mul1r; case: (h i j hj) => h1 _; apply: h1.
by apply: (bij_rank bz bp hs) => i j hi hj; case: (h i j hj) => _; apply.
Qed.

(* ---- logical operators *)
Lemma kerP n (M : mat F) v : wf n M -> size v = n ->
  mulmv M v = nseq (size M) 0 <-> mx (size M) n M *m (rv n v)^T = 0.
Proof.
move=> wM sv; rewrite -cvE -(cv_mulmv erefl wM sv); split=> [-> | h].
  by apply/colP => i; rewrite !mxE nth_nseq; case: ifP.
apply: (@eq_from_nth _ 0); rewrite ?size_mulmv ?size_nseq // => i hi.
by have /colP /(_ (Ordinal hi)) := h; rewrite !mxE /= nth_nseq hi.
Qed.

Lemma fweightE n (v : seq F) : size v = n -> fweight v = (\sum_(j < n) (rv n v ord0 j != 0%R))%N.
Proof.
move=> sv; rewrite /fweight -sum1_count (big_nth 0) sv big_mkord big_mkcond.
by apply: eq_bigr => j _; rewrite !mxE; case: (_ != 0).
Qed.

Lemma logical_perm n (X Z X' Z' : mat F) fx fz pi (sx sz : F) w : wf n X -> wf n Z -> wf n X' -> wf n Z' ->
  size X' = size X -> size Z' = size Z -> bij_on (size X) fx -> bij_on (size Z) fz -> bij_on n pi ->
  sx = 1 \/ sx = -1 -> sz = 1 \/ sz = -1 ->
  (forall i j, (i < size X)%N -> (j < n)%N -> ent X' (fx i) (pi j) = sx * ent X i j) ->
  (forall i j, (i < size Z)%N -> (j < n)%N -> ent Z' (fz i) (pi j) = sz * ent Z i j) ->
  (exists2 v, logical_word n X' Z' v & fweight v = w) <-> (exists2 v, logical_word n X Z v & fweight v = w).
Proof.
move=> wX wZ wX' wZ' eX eZ bx bz bp /sign_nz x0 /sign_nz z0.
move=> /(bij_mx bx bp) [ux [v [hv eqX]]] /(bij_mx bz bp) [uz [v' [hv' eqZ]]].
have ev : v' = v by apply/permP => j; apply: val_inj; exact: etrans (hv' j) (esym (hv j)).
rewrite ev {hv'} in eqZ.
have lw (u u' : seq F) : size u = n -> size u' = n -> rv n u' = rv n u *m perm_mx v ->
    (logical_word n X' Z' u' <-> logical_word n X Z u) /\ fweight u' = fweight u.
  move=> su su' e; split; last first.
    rewrite (fweightE su) (fweightE su') e (reindex_inj (@perm_inj _ v)) /=; apply: eq_bigr => j _.
    by rewrite -[v in perm_mx v]invgK -col_permE mxE permK.
  have kz : mulmv Z' u' = nseq (size Z') 0 <-> mulmv Z u = nseq (size Z) 0.
    rewrite !(kerP (n := n)) // eZ; have -> : (mx (size Z) n Z *m (rv n u)^T = 0) <-> (sz *: mx (size Z) n Z *m (rv n u)^T = 0).
      rewrite -scalemxAl; split=> [-> | /eqP]; first by rewrite scaler0.
      by rewrite scaler_eq0 (negbTE z0) => /eqP.
    rewrite eqZ e trmx_mul tr_perm_mx -!mulmxA; split=> [-> | h]; first by rewrite mulmx0.
    have := congr1 (mulmx (perm_mx uz^-1)) h; rewrite mulmx0 mulmxA -perm_mxM mulVg perm_mx1 mul1mx //.
  have sx' : span n X' u' <-> span n X u.
    rewrite !spanP !(sub_sp _ erefl) eX.
    have -> : (rv n u <= mx (size X) n X)%MS = (rv n u <= sx *: mx (size X) n X)%MS by rewrite (eqmx_scale _ x0).
    rewrite eqX e; have fr : row_free (perm_mx v : 'M[F]_n) by rewrite row_free_unit unitmx_perm.
    have -> : (rv n u <= perm_mx ux *m mx (size X) n X' *m perm_mx v^-1)%MS = (rv n u *m perm_mx v <= perm_mx ux *m mx (size X) n X')%MS.
      by rewrite -(submxMfree _ _ fr) -mulmxA -perm_mxM mulVg perm_mx1 mulmx1.
    have -> : (rv n u *m perm_mx v <= perm_mx ux *m mx (size X) n X')%MS = (rv n u *m perm_mx v <= mx (size X) n X')%MS.
      have fu : row_full (perm_mx ux : 'M[F]_(size X)) by rewrite row_full_unit unitmx_perm.
      by rewrite (eqmxMfull _ fu).
    by split=> -[].
  rewrite /logical_word; split=> -[_ k ns]; split=> //; [exact/kz | by move/sx' | exact/kz | by move/sx'].
have inv (y : 'rV[F]_n) : exists2 u, size u = n & rv n u = y.
  exists [seq y ord0 j | j <- fintype.enum 'I_n]; first by rewrite size_map size_enum_ord.
  apply/rowP => j; rewrite mxE (nth_map j) ?size_enum_ord //.
  by rewrite nth_ord_enum.
split=> -[u lu wu]; have su : size u = n by case: lu.
  have [u0 s0 e0] := inv (rv n u *m perm_mx v^-1); exists u0.
    by apply/(proj1 (lw u0 u s0 su _)); rewrite // e0 -mulmxA -perm_mxM mulVg perm_mx1 mulmx1.
  by rewrite -wu; apply/esym/(proj2 (lw u0 u s0 su _)); rewrite e0 -mulmxA -perm_mxM mulVg perm_mx1 mulmx1.
have [u0 s0 e0] := inv (rv n u *m perm_mx v); exists u0; first exact/(proj1 (lw u u0 su s0 e0)).
by rewrite -wu; apply: (proj2 (lw u u0 su s0 e0)).
Qed.

Theorem perm_equiv_logical (c c' : csscode F) w : wf (c_n c) (c_x c) -> wf (c_n c) (c_z c) -> wf (c_n c') (c_x c') -> wf (c_n c') (c_z c') ->
  perm_equiv c c' ->
  ((exists2 v, logical_word (c_n c') (c_x c') (c_z c') v & fweight v = w) <-> (exists2 v, logical_word (c_n c) (c_x c) (c_z c) v & fweight v = w)) /\
  ((exists2 v, logical_word (c_n c') (c_z c') (c_x c') v & fweight v = w) <-> (exists2 v, logical_word (c_n c) (c_z c) (c_x c) v & fweight v = w)).
Proof.
move=> wx wz wx' wz' [en ex ez [fx [fz [pi [s [bx bz bp hs h]]]]]]; rewrite en in wx' wz' *.
have hx i j : (i < size (c_x c))%N -> (j < c_n c)%N -> ent (c_x c') (fx i) (pi j) = 1 * ent (c_x c) i j.
  by move=> hi hj; rewrite mul1r; case: (h i j hj) => h1 _; apply: h1.
have hz i j : (i < size (c_z c))%N -> (j < c_n c)%N -> ent (c_z c') (fz i) (pi j) = s * ent (c_z c) i j.
  by move=> hi hj; case: (h i j hj) => _; apply.
have o1 : (1 : F) = 1 \/ (1 : F) = -1 by left.
by split; [apply: (logical_perm _ wx wz wx' wz' ex ez bx bz bp o1 hs hx hz) | apply: (logical_perm _ wz wx wz' wx' ez ex bz bx bp hs o1 hz hx)].
Qed.
End Perms.
