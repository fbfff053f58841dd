(* Small quantum codes: model of FiveQubitCode, SteaneCode, IcebergCode, C4Code and C6Code in qldpc/codes/quantum.py:43-124.
   All of them are codes over the binary field. *)
From Coq Require Import ZArith String.
From mathcomp Require Import all_ssreflect all_algebra zify.
From Verif Require Import LinAlg RowReduce Classical ClassicalProofs ClassicalProofs2 ClassicalDist.
From Verif Require Import Symplectic Quantum QuantumProofs QuantumLogs Css CssLogs CssProofs CssGauge QuantumDist CssDist CssCert ToricProofs.
From Verif Require Import QuditText Families.
Set Implicit Arguments.
Unset Strict Implicit.
Unset Printing Implicit Defensive.
Import GRing.Theory.
Local Open Scope ring_scope.

(* =============================================================================== model *)
Notation F2 := [fieldType of 'F_2].
Notation vec := (seq F2).
Notation mat := (seq (seq F2)).

(* the conversion of an integer to an element of the binary field by galois *)
Definition to_F2 (x : Z) : F2 := (Z.to_nat x)%:R.
(* self._dimension = k *)
Definition c_with_dim (c : csscode F2) (k : nat) : csscode F2 :=
  CSS (c_n c) (c_x c) (c_z c) (c_sub c) (c_stab c) (c_gauge c) (c_logs c) (Some k).
(* self._distance_x = self._distance_z = d in a code that was made without a promise about its distances (common.py:1437-1452) *)
Definition both_dist (c : csscode F2) (d : nat) : dstate := DState (Some (Dist d)) (Some (Dist d)) None (c_x c == c_z c).

(* quantum.py:43-56: FiveQubitCode(), with the stored distance *)
Definition five_strings : seq string := [:: "X Z Z X I"; "I X Z Z X"; "X I X Z Z"; "Z X I X Z"]%string.
Definition five_qubit_code : option (qcode F2 * dvalue) :=
  if from_strings 2 five_strings is Some m then
    let A := map (map to_F2) m in
    let c := mkq (size (head [::] A) %/ 2)%N A (Some false) in
    Some (QCode (q_n c) (q_mat c) (q_sub c) (q_stab c) (q_gauge c) (q_logs c) (Some 1%N), Dist 3)
  else None.

(* quantum.py:59-67: SteaneCode() *)
Definition steane_code : option (csscode F2 * dstate) :=
  if hamming_code [:: 0; 1] 3 is Some (h, _) then
    if c_set_logical_ops_xz (mkcss (cc_n h) (cc_mat h) (cc_mat h) (Some false)) [:: nseq 7 1] [:: nseq 7 1] false is Some c then
      Some (c_with_dim c 1, both_dist c 3)
    else None
  else None.

(* quantum.py:70-95: IcebergCode(size, alternative_logicals=alt); size is at least one *)
Definition sector_ops_x : mat := [:: [:: 1; 1; 0]; [:: 0; 1; 1]].
Definition sector_ops_z : mat := rev sector_ops_x.
Definition iceberg_code (size : nat) (alt : bool) : option (csscode F2 * dstate) :=
  let n := (2 * size)%N in
  let checks := [:: nseq n 1] in
  let c := c_with_dim (mkcss n checks checks (Some false)) (n - 2) in
  let st := both_dist c 2 in
  if alt && (size == 3%N) then
    if c_set_logical_ops_xz c (bdiag 3 3 sector_ops_x sector_ops_x) (bdiag 3 3 sector_ops_z sector_ops_z) true is Some c'
    then Some (c', st) else None
  else Some (c, st).

(* quantum.py:98-107: C4Code() *)
Definition c4_code : option (csscode F2 * dstate) := iceberg_code 2 false.

(* quantum.py:110-124: C6Code() *)
Definition c6_code : option (csscode F2 * dstate) :=
  let checks := [:: [:: 1; 1; 0; 0; 1; 1]; [:: 0; 1; 1; 1; 1; 0]] in
  let ops := bdiag 3 3 [:: [:: 1; 1; 1]] [:: [:: 1; 1; 1]] in
  if c_set_logical_ops_xz (mkcss 6 checks checks (Some false)) ops ops true is Some c then
    Some (c_with_dim c 2, both_dist c 2)
  else None.

(* =============================================================================== proofs *)
Lemma F2_two : 1 + 1 = 0 :> F2.
Proof. exact/val_inj. Qed.
Lemma nat_even (m : nat) : (2 * m)%N%:R = 0 :> F2.
Proof. by rewrite natrM (_ : 2%:R = 0) ?mul0r //; exact/val_inj. Qed.

Section Iceberg.
Variable s : nat.
Hypothesis s0 : (0 < s)%N.
Let n := (2 * s)%N.
Let P : mat := [:: nseq n 1].

Lemma ice_wf : wf n P.
Proof. by rewrite /wf /P /= size_nseq eqxx. Qed.
Lemma ice_row (i : 'I_1) (j : 'I_n) : (sp n P : 'M_(1, n)) i j = 1.
Proof. by rewrite mxE ord1 /ent /row (_ : nth [::] P _ = nseq n 1) // nth_nseq ltn_ord. Qed.
Lemma ice_comm : sp n P *m (sp n P)^T = 0.
Proof.
apply: (comm_rows ice_wf ice_wf) => p w; rewrite !inE => /eqP -> /eqP ->.
rewrite (eq_bigr (fun _ => 1)) => [|q _]; last by rewrite !nth_nseq ltn_ord mulr1.
by rewrite sumr_const card_ord nat_even.
Qed.
Lemma ice_rank : \rank (sp n P) = 1%N.
Proof.
change (\rank (sp n P : 'M_(1, n)) = 1%N); rewrite rank_rV (_ : (_ != 0) = true) //.
have n0 : (0 < n)%N by rewrite /n; lia.
apply/eqP => /matrixP /(_ 0 (Ordinal n0)); rewrite ice_row mxE => /eqP; by rewrite oner_eq0.
Qed.
Lemma ice_counts : counts n (css_mat n P P) (n - 2) 0.
Proof. by apply/(counts_css _ _ ice_wf ice_wf); rewrite ice_comm mxrank0 ice_rank; split=> //; rewrite /n; lia. Qed.

Lemma ice_sum (v : 'rV[F2]_n) : v *m (sp n P)^T = 0 <-> \sum_(q < n) v 0 q = 0.
Proof.
have e : (v *m (sp n P : 'M_(1, n))^T) 0 0 = \sum_(q < n) v 0 q.
  by rewrite mxE; apply: eq_bigr => q _; rewrite mxE ice_row mulr1.
split=> [h | h]; first by rewrite -e h mxE.
by change (v *m (sp n P : 'M_(1, n))^T = 0); apply/matrixP => i j; rewrite !ord1 e h mxE.
Qed.
Lemma ice_in (v : 'rV[F2]_n) : (v <= sp n P)%MS -> exists a, forall q, v 0 q = a.
Proof.
rewrite -[sp n P]/(sp n P : 'M_(1, n)) => /sub_rVP [a ->]; by exists a => q; rewrite mxE ice_row mulr1.
Qed.

Lemma ice_lower (v : vec) : tnon n P P v -> (2 <= hwt v)%N.
Proof.
move=> h; have sv : size v = n by case: h.
have [h1 h2] := proj1 (tnon_comm ice_comm sv) h; move/ice_sum: h1 => h1.
have [q nq] : exists q : 'I_n, rv n v 0 q != 0.
  apply/existsP; rewrite -negb_forall; apply/negP => /forallP z; case/negP: h2.
  by rewrite (_ : rv n v = 0) ?sub0mx //; apply/rowP => q; rewrite [RHS]mxE; apply/eqP/z.
have [q' nq' ne] : exists2 q' : 'I_n, rv n v 0 q' != 0 & q' != q.
  case: (boolP [exists q' : 'I_n, (rv n v 0 q' != 0) && (q' != q)]).
    by case/existsP => q' /andP [h3 h4]; exists q'.
  rewrite negb_exists => /forallP z; case/negP: nq; rewrite -h1 (bigD1 q) //= big1 ?addr0 // => q' ne.
  by apply/eqP; have := z q'; rewrite ne andbT negbK.
apply: (@hits _ n v (fun t => (t == q' :> nat) : nat)) => // j lj.
case: j lj => [|[|//]] _; [exists q | exists q']; split; rewrite ?ltn_ord //.
- by have := nq; rewrite mxE.
- by apply/eqP; rewrite eqb0; apply: contraNN ne => /eqP e; apply/eqP/val_inj.
- by have := nq'; rewrite mxE.
- by rewrite eqxx.
Qed.

Let w : vec := mkseq (fun j => (j < 2)%N%:R) n.
Lemma ice_w : (1 < s)%N -> tnon n P P w /\ hwt w = 2%N.
Proof.
move=> s1; have sw : size w = n by rewrite size_mkseq.
have wE (q : 'I_n) : rv n w 0 q = (q < 2)%N%:R by rewrite mxE nth_mkseq.
have n2 : n = (2 + (n - 2))%N by rewrite /n; lia.
split; last first.
  rewrite /hwt /w /mkseq count_map n2 iotaD count_cat.
  rewrite (@eq_in_count _ _ predT) ?(@eq_in_count _ _ pred0 (iota _ (n - 2))) ?count_pred0 ?count_predT ?size_iota //.
    by move=> j; rewrite mem_iota add0n => /andP [lj _]; rewrite [LHS](_ : _ = ((j < 2)%N%:R != 0 :> F2)) // ltnNge lj eqxx.
  by move=> j; rewrite mem_iota add0n => /andP [_ lj]; rewrite [LHS](_ : _ = ((j < 2)%N%:R != 0 :> F2)) // lj oner_eq0.
apply/(tnon_comm ice_comm sw); split.
  apply/ice_sum; rewrite (eq_bigr (fun q : 'I_n => (q < 2)%N%:R)) => [|q _]; last exact: wE.
  rewrite -(big_mkord xpredT (fun q => (q < 2)%N%:R)) n2 (@big_cat_nat _ _ _ 2) //=.
  rewrite big_nat_recl // big_nat1 /= [X in _ + X]big_nat_cond [X in _ + X]big1 ?addr0 ?F2_two // => j.
  by rewrite andbT => /andP [lj _]; rewrite ltnNge lj.
apply/negP => /ice_in [a h].
have l0 : (0 < n)%N by rewrite /n; lia.
have l2 : (2 < n)%N by rewrite /n; lia.
have := h (Ordinal l0); have := h (Ordinal l2); rewrite !wE /= => <- /eqP.
by rewrite oner_eq0.
Qed.

Lemma ice_tdist x : (1 < s)%N -> is_tdist x n (css_mat n P P) 2.
Proof.
move=> s1; have [h1 h2] := ice_w s1; apply: tdist_of => [||v|]; try exact: ice_wf.
  by case: x; apply: ice_lower.
by exists w; case: x.
Qed.

Lemma ice_ok : let c := c_with_dim (mkcss n P P (Some false)) (n - 2) in
  [/\ c_ok c, commuting n (c_mat c) & counts n (c_mat c) (n - 2) 0].
Proof.
have ok : c_ok (mkcss n P P (Some false)) by apply: c_ok_mk; rewrite ?ice_wf // => _; apply: ice_comm.
have cm : commuting n (css_mat n P P) by apply/css_commP; rewrite ?ice_wf //; apply: ice_comm.
split=> //; last exact: ice_counts.
case: ok => [[q1 q2 q3 q4 q5] h1 h2 h3 h4]; split=> //; split=> //= k [<-]; exists 0%N; exact: ice_counts.
Qed.
End Iceberg.

(* what is stored is true when the code has dimension zero, too: nothing stored is ever read *)
Lemma both_ok (c : csscode F2) d : c_ok c -> c_x c = c_z c ->
  (forall x, is_tdist x (c_n c) (c_mat c) d) -> dstate_ok c (both_dist c d).
Proof.
move=> ok e h; have := @fresh_ok _ c false ok => /= f.
by have [//|_ _ _ f4] := f; split=> //=; apply: h.
Qed.

Lemma set_shape (c : csscode F2) (lx lz : mat) b c' : c_set_logical_ops_xz c lx lz b = Some c' ->
  c' = CSS (c_n c) (c_x c) (c_z c) (c_sub c) (c_stab c) (c_gauge c) (Some (bdiag (c_n c) (c_n c) lx lz))
           (Some (size (bdiag (c_n c) (c_n c) lx lz) %/ 2)%N).
Proof.
rewrite /c_set_logical_ops_xz /c_set_logical_ops /set_logical_ops /of_q.
by case: b => /=; do ?case: ifP => //= _; case=> <-.
Qed.

Definition F2e : vec := [:: 1].
Lemma F2_all (y : F2) : y \in 0 :: F2e.
Proof. by case: y => [[|[|//]] i]; rewrite !inE; apply/orP; [left | right]; apply/eqP/val_inj. Qed.
Lemma F2_uniq : uniq (0 :: F2e).
Proof. by []. Qed.

(* a self-orthogonal check matrix with the same logical operators in both sectors; everything to check is a computation *)
Lemma small_css n (chk ops : mat) k d (c0 := mkcss n chk chk (Some false)) : wf n chk -> wf n ops -> k <> 0%N ->
  (N.of_nat n < Pack.first_modulus Pack.Swar)%num ->
  c_sub (mkcss n chk chk None) = false -> isSome (c_set_logical_ops_xz c0 ops ops true) -> c_dimension c0 = k ->
  c_search Pack.Swar (0 :: F2e) c0 true = Some d -> c_search Pack.Swar (0 :: F2e) c0 false = Some d ->
  exists c, [/\ (forall b, c_set_logical_ops_xz c0 ops ops b = Some c) /\ c_with_dim c k = c,
    c_ok c /\ c_sub c = false, [/\ c_n c = n, c_x c = chk & c_z c = chk],
    commuting n (c_mat c) /\ counts n (c_mat c) k 0 /\ c_dim c = Some k &
    [/\ forall x, is_tdist x n (c_mat c) d, is_qdist n (c_mat c) d, dstate_ok c (both_dist c d),
      c_get_logical_ops c false = Some (bdiag n n ops ops) & logical_basis n k (c_mat c) (bdiag n n ops ops)]].
Proof.
move=> wc wo k0 hN hs; case e: (c_set_logical_ops_xz c0 ops ops true) => [c|//] _ ek hx hz.
have cm : sp n chk *m (sp n chk)^T = 0.
  by have [h _ _ _ _] := @c_ok_mk _ n chk chk None wc wc (fun h => ltac:(discriminate h)); case: h => _ /(_ hs) /(css_commP wc wc).
have cA : commuting n (css_mat n chk chk) by apply/css_commP.
have ok0 : c_ok c0 by apply: c_ok_mk.
have [ok el sx _ lb] := set_xz_ok ok0 wo wo e; rewrite ek in sx lb.
have ec := set_shape e.
have so : (size (bdiag n n ops ops) %/ 2)%N = k by rewrite size_bdiag sx addnn -muln2 mulnK.
have eb b : c_set_logical_ops_xz c0 ops ops b = Some c.
  case: b => //; move: e; rewrite ec /c_set_logical_ops_xz /c_set_logical_ops /set_logical_ops /of_q /=.
  by [].
have dm : c_dim c = Some k by rewrite ec /= so.
have hc := c_counts ok0; rewrite ek in hc.
have cg := comm_gauge0 (wf_css wc wc) cA hc; rewrite cg in hc.
have gk : gauge_ok c0 by move=> g.
have t x : is_tdist x n (css_mat n chk chk) d.
  have k0' : c_dimension c0 <> 0%N by rewrite ek.
  have hM : size F2e = 1%N -> (N.of_nat (c_n c0) < Pack.first_modulus Pack.Swar)%num by [].
  have [m em hm] := @c_search_ok _ Pack.Swar F2e c0 x ok0 gk F2_uniq F2_all hM k0'.
  by case: x em hm => em hm; [move: hx | move: hz]; rewrite em => -[<-].
have [en [exx ez]] : c_n c = n /\ c_x c = chk /\ c_z c = chk by rewrite ec.
have eA : c_mat c = css_mat n chk chk by rewrite /c_mat en exx ez.
exists c; rewrite eA; split=> //.
- by split=> //; rewrite ec /c_with_dim /= so.
- by split=> //; rewrite ec.
split=> //; first by have := css_qdist wc wc (t true) (t false); rewrite minnn.
by apply: both_ok => //; rewrite ?exx ?ez // eA en.
Qed.
