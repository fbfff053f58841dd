(* Distances, random logical operators and reduced logical operators of quantum codes: model of
   qldpc/codes/common.py:56-70, 1216-1236, 1282-1359, 1969-1980 and 1988-2215. *)
From Coq Require Import NArith List.
From mathcomp Require Import all_ssreflect all_algebra zify.
From Verif Require Import LinAlg RowReduce Classical ClassicalProofs ClassicalProofs2 ClassicalDist.
From Verif Require Import Symplectic Quantum QuantumProofs QuantumLogs Css CssLogs CssProofs CssGauge QuantumDist.
From Verif Require BitWeight Pack GrayCode.
Set Implicit Arguments.
Unset Strict Implicit.
Unset Printing Implicit Defensive.
Import GRing.Theory.
Local Open Scope ring_scope.

(* ============================================================================== model *)
(* the fields _distance_x, _distance_z, _distance and _equal_distance_xz of a CSSCode (common.py:1575-1577) *)
Record dstate := DState { ds_x : option dvalue; ds_z : option dvalue; ds_d : option dvalue; ds_eq : bool }.
(* python's min(a, b): b if b < a, otherwise a; comparisons with nan are false *)
Definition dmin (a b : dvalue) : dvalue :=
  match a, b with Dist m, Dist k => Dist (minn m k) | _, _ => a end.

Section Model.
Variable F : fieldType.
Notation vec := (seq F).
Notation mat := (seq (seq F)).
Implicit Types c : csscode F.

(* common.py:56-70: get_random_array; the i-th array drawn is `rnd i`, and at most `fuel` of them are drawn.  None models
   running out of fuel (or an array of the wrong length) *)
Fixpoint random_array (fuel len : nat) (satisfy : vec -> bool) (rnd : nat -> vec) (i : nat) : option vec :=
  if fuel is f.+1 then
    if size (rnd i) != len then None
    else if satisfy (rnd i) then Some (rnd i) else random_array f len satisfy rnd i.+1
  else None.

(* common.py:2153-2172: get_random_logical_op(pauli, ensure_nontrivial=..); x is true for Pauli.X *)
Definition c_random_logical_op c (x ensure : bool) (fuel : nat) (rnd : nat -> vec) : option vec :=
  if c_get_logical_ops_pauli c x is Some logs then
    let ops := logs ++ c_get_stabilizer_ops_pauli c x in
    omap (fun a => vmulm (c_n c) a ops)
      (random_array fuel (size ops) (fun a => if ensure then vany (take (c_dimension c) a) else true) rnd 0)
  else None.

(* common.py:2086-2151: get_one_distance_bound(pauli); the i-th random logical operator is made from the stream `rnd i`,
   the i-th call of the decoder is `dec i`.  None models running out of fuel or an exception. *)
Definition c_checks c (x : bool) : mat := if x then c_x c else c_z c.
Fixpoint c_bound_loop (fuel : nat) c (x : bool) (rnd : nat -> nat -> vec) (dec : nat -> mat -> vec -> vec) (f0 i : nat) : option nat :=
  if fuel is f.+1 then
    if c_random_logical_op c (~~ x) true f0 (rnd i) is Some word then
      let chk := rcons (c_checks c (~~ x)) word in
      let syn := rcons (nseq (size (c_checks c (~~ x))) 0) 1 in
      let cand := dec i chk syn in
      if size cand != c_n c then None
      else if mulmv chk cand == syn then Some (hwt cand)
      else c_bound_loop f c x rnd dec f0 i.+1
    else None
  else None.
(* `choice` is the result of random.choice(PAULIS_XZ) *)
Definition c_one_bound c (pauli : option bool) (choice : bool) (fuel : nat) (rnd : nat -> nat -> vec) (dec : nat -> mat -> vec -> vec) :=
  c_bound_loop fuel c (if pauli is Some x then x else choice) rnd dec fuel 0.

(* common.py:2045-2057: get_distance_if_known(pauli), with the updated fields *)
Definition c_if_known c (st : dstate) (pauli : option bool) : option dvalue * dstate :=
  let st' := if c_dimension c == 0%N then DState (Some NaN) (Some NaN) (Some NaN) (ds_eq st) else st in
  (match pauli with Some true => ds_x st' | Some false => ds_z st' | None => ds_d st' end, st').

(* common.py:2059-2084: get_distance_bound; trial t uses the streams choice t, rnd t and dec t *)
Fixpoint c_trials (m t : nat) (cutoff : option nat) c (pauli : option bool) (choice : nat -> bool) (fuel : nat)
    (rnd : nat -> nat -> nat -> vec) (dec : nat -> nat -> mat -> vec -> vec) (best : nat) : option nat :=
  if m is m'.+1 then
    if (if cutoff is Some k then (k != 0%N) && (best <= k)%N else false) then Some best
    else if c_one_bound c pauli (choice t) fuel (rnd t) (dec t) is Some b
         then c_trials m' t.+1 cutoff c pauli choice fuel rnd dec (minn best b) else None
  else Some best.
Definition c_distance_bound (num_trials : nat) (cutoff : option nat) c (st : dstate) (pauli : option bool) (choice : nat -> bool)
    (fuel : nat) (rnd : nat -> nat -> nat -> vec) (dec : nat -> nat -> mat -> vec -> vec) : option dvalue :=
  if (c_if_known c st pauli).1 is Some d then Some d
  else omap Dist (c_trials num_trials 0 cutoff c pauli choice fuel rnd dec (c_n c)).

(* common.py:1216-1236 and 1969-1980: get_gauge_ops(pauli); reshape(2, -1, ..) raises an error for an odd number of rows *)
Definition c_get_gauge_ops_pauli c (x : bool) : option mat :=
  if ~~ c_sub c then Some [::]
  else if c_get_gauge_ops c is Some g then
    if odd (size g) then None
    else Some (if x then x_part (c_n c) (take (size g %/ 2) g) else z_part (c_n c) (drop (size g %/ 2) g))
  else None.

(* common.py:2016-2034: the search in get_distance_exact(pauli).  `el` lists field.elements, `be` is the implementation of
   the weight function that is installed *)
Definition c_search (be : Pack.backend) (el : vec) c (x : bool) : option nat :=
  if c_get_logical_ops_pauli c x is Some logs then
    if c_get_gauge_ops_pauli c x is Some gauge then
      let stabs := c_get_stabilizer_ops_pauli c x ++ (if c_sub c then gauge else [::]) in
      if size el == 2%N then
        omap N.to_nat (GrayCode.get_distance_quantum be true 15 (c_n c) [seq bits r | r <- logs] [seq bits r | r <- stabs])
      else pymin [seq hwt (vadd l s) | l <- iter_words el (from_generator (c_n c) logs) true,
                                       s <- iter_words el (from_generator (c_n c) stabs) false]
    else None
  else None.

(* common.py:2005-2043: get_distance_exact(pauli) for a given Pauli operator, and get_distance_exact() *)
Definition c_exact_pauli be el c (st : dstate) (x : bool) : option (dvalue * dstate) :=
  let (known, st) := c_if_known c st (Some x) in
  if known is Some d then Some (d, st)
  else if c_search be el c x is Some m then
    let dx := if x || ds_eq st then Some (Dist m) else ds_x st in
    let dz := if ~~ x || ds_eq st then Some (Dist m) else ds_z st in
    let dd := if dx is Some a then if dz is Some b then Some (dmin a b) else ds_d st else ds_d st in
    Some (Dist m, DState dx dz dd (ds_eq st))
  else None.
Definition c_exact be el c (st : dstate) (pauli : option bool) : option (dvalue * dstate) :=
  let (known, st) := c_if_known c st pauli in
  if known is Some d then Some (d, st)
  else if pauli is Some x then c_exact_pauli be el c st x
  else if c_exact_pauli be el c st true is Some (a, st1) then
         if c_exact_pauli be el c st1 false is Some (b, st2) then Some (dmin a b, st2) else None
       else None.

(* common.py:2174-2204: reduce_logical_op(pauli, logical_index) *)
Fixpoint c_reduce_loop (fuel n : nat) (chk : mat) (syn : vec) (dec : nat -> mat -> vec -> vec) (i : nat) : option vec :=
  if fuel is f.+1 then
    let cand := dec i chk syn in
    if size cand != n then None
    else if mulmv chk cand == syn then Some cand else c_reduce_loop f n chk syn dec i.+1
  else None.
Definition c_set_logs c (l : mat) : csscode F := CSS (c_n c) (c_x c) (c_z c) (c_sub c) (c_stab c) (c_gauge c) (Some l) (c_dim c).
Definition c_reduce_op c (x : bool) (idx fuel : nat) (dec : nat -> mat -> vec -> vec) : option (csscode F) :=
  let n := c_n c in let k := c_dimension c in
  if ~~ (idx < k)%N then None
  else if c_get_logical_ops_pauli c (~~ x) is Some dual then
    let chk := c_checks c (~~ x) ++ dual in
    let syn := vunit F (size (c_checks c (~~ x)) + k) (size (c_checks c (~~ x)) + idx) in
    if c_reduce_loop fuel n chk syn dec 0 is Some cand then
      if c_get_logical_ops c false is Some l then
        let row := if x then idx else (k + idx)%N in
        let old := nth [::] l row in
        Some (c_set_logs c (set_nth [::] l row (if x then cand ++ drop n old else take n old ++ cand)))
      else None
    else None
  else None.
(* common.py:2206-2215: reduce_logical_ops(pauli); the decoder calls for operator idx use the stream dec x idx *)
Definition c_reduce_ops_pauli c (x : bool) (fuel : nat) (dec : nat -> nat -> mat -> vec -> vec) : option (csscode F) :=
  foldl (fun oc idx => if oc is Some c then c_reduce_op c x idx fuel (dec idx) else None) (Some c) (iota 0 (c_dimension c)).
Definition c_reduce_ops c (pauli : option bool) (fuel : nat) (dec : bool -> nat -> nat -> mat -> vec -> vec) : option (csscode F) :=
  if pauli is Some x then c_reduce_ops_pauli c x fuel (dec x)
  else if c_reduce_ops_pauli c true fuel (dec true) is Some c1 then c_reduce_ops_pauli c1 false fuel (dec false) else None.

(* common.py:1295-1325: QuditCode.get_distance_exact(); `kd` is the field _distance *)
Definition q_search (be : Pack.backend) (el : vec) (c : qcode F) : option nat :=
  let n := q_n c in
  if get_logical_ops c is Some logs then
    if q_get_gauge_ops c is Some gauge then
      let stabs := (get_stabilizer_ops c false true).1 ++ (if q_sub c then gauge else [::]) in
      if size el == 2%N then
        omap N.to_nat (GrayCode.get_distance_quantum be false 15 (n + n) [seq bits r | r <- logs] [seq bits r | r <- stabs])
      else Some (foldl minn n [seq qwt n (vadd l s) | l <- iter_words el (from_generator (n + n) logs) true,
                                                      s <- iter_words el (from_generator (n + n) stabs) false])
    else None
  else None.
Definition q_exact be el (c : qcode F) (kd : option dvalue) : option dvalue :=
  if q_dimension c == 0%N then Some NaN
  else if kd is Some d then Some d
  else omap Dist (q_search be el c).
End Model.

(* =============================================================================== proofs *)
Section Search.
Variable F : fieldType.
Notation vec := (seq F).
Notation mat := (seq (seq F)).

Lemma qwt_emb x n (v : vec) : size v = n -> qwt n (emb x n v) = hwt v.
Proof.
move=> sv; rewrite /qwt /hwt -[in RHS](mkseq_nth 0 v) /mkseq count_map sv; apply: eq_in_count => j; rewrite mem_iota /= add0n => lj.
rewrite /emb; case: x; rewrite !nth_cat ?size_nseq ?sv lj ltnNge leq_addr /= addKn nth_nseq lj eqxx ?orbF //.
Qed.

Lemma qwt_cat n (a b : vec) : size a = n -> size b = n -> (hwt a <= qwt n (a ++ b))%N /\ (hwt b <= qwt n (a ++ b))%N.
Proof.
move=> sa sb; have h (v : vec) : size v = n -> hwt v = count (fun j => nth 0 v j != 0) (iota 0 n).
  by move=> sv; rewrite /hwt -[in LHS](mkseq_nth 0 v) /mkseq count_map sv.
rewrite !h // /qwt; split.
  have -> : count (fun j => nth 0 a j != 0) (iota 0 n) = count (fun j => nth 0 (a ++ b) j != 0) (iota 0 n).
    by apply: eq_in_count => j; rewrite mem_iota /= add0n nth_cat sa => ->.
  by apply: sub_count => j /= ->.
have -> : count (fun j => nth 0 b j != 0) (iota 0 n) = count (fun j => nth 0 (a ++ b) (n + j) != 0) (iota 0 n).
  by apply: eq_in_count => j _; rewrite nth_cat sa ltnNge leq_addr /= addKn.
by apply: sub_count => j /= ->; rewrite orbT.
Qed.

Lemma css_qdist n (X W : mat) dx dz : wf n X -> wf n W -> is_tdist true n (css_mat n X W) dx -> is_tdist false n (css_mat n X W) dz ->
  is_qdist n (css_mat n X W) (minn dx dz).
Proof.
move=> wX wW [[vx [sx nx ex]] mx_] [[vz [sz nz ez]] mz]; split.
  rewrite /minn; case: ifP => _; [exists (emb true n vx) | exists (emb false n vz)]; by rewrite // qwt_emb.
move=> v nv; have [sv h1 h2] := proj1 (nontrivialE _ (wf_css wX wW)) nv.
have sa := half_take sv; have sb := half_drop sv.
have [wa wb] := qwt_cat sa sb; rewrite cat_take_drop in wa wb.
move: h1 h2; rewrite (scomp_eqmx (css_center wX wW)) (sp_css wX wW) -[v in rv _ v](cat_take_drop n) rv_cat //.
rewrite row_scomp_block row_block negb_and => /andP [ha hb] /orP [na|nb].
  have : (dx <= hwt (take n v))%N by apply: mx_ => //; apply/nontrivial_emb.
  by move=> h; apply: leq_trans (geq_minl _ _) (leq_trans h wa).
have : (dz <= hwt (drop n v))%N by apply: mz => //; apply/nontrivial_emb.
by move=> h; apply: leq_trans (geq_minr _ _) (leq_trans h wb).
Qed.

(* the searched operators and the weights used in the search *)
Definition oper (nb : nat) (L S : mat) (w : vec) : Prop :=
  exists a t : vec, [/\ size a = size L, size t = size S, vany a & w = vadd (vmulm nb a L) (vmulm nb t S)].
Definition wgt (hom : bool) (n : nat) (w : vec) : nat := if hom then hwt w else qwt n w.
Definition is_min (wt : vec -> nat) (P : vec -> Prop) (d : nat) : Prop :=
  (exists2 w, P w & wt w = d) /\ forall w, P w -> (d <= wt w)%N.

Lemma swt_bits n (w : vec) : size w = (n + n)%N -> Pack.swt (bits w) = N.of_nat (qwt n w).
Proof.
move=> sw; rewrite /Pack.swt; congr N.of_nat; have -> : Nat.div2 (length (bits w)) = n.
  by rewrite length_size size_map sw addnn -mul2n PeanoNat.Nat.div2_double.
have nb j : List.nth j (bits w) false = (nth 0 w j != 0).
  elim: {sw} w j => [|x w IH] [|j] //=; rewrite ?eqxx //; exact: IH.
rewrite /qwt; have : forall s, length (List.filter (fun i => List.nth i (bits w) false || List.nth (n + i) (bits w) false) (List.seq s n)) =
   count (fun j => (nth 0 w j != 0) || (nth 0 w (n + j) != 0)) (iota s n); last by apply.
move: {2 4}n => m; elim: m => [|m IH] s //=.
by rewrite !nb; case: (_ || _); rewrite /= IH.
Qed.

Section Gray.
Variable el : seq F.
Hypothesis uel : uniq el.
Hypothesis ael : forall x : F, x \in el.
Hypothesis sel : size el = 2%N.

Lemma wgt_bits hom n nb (w : vec) : nb = (if hom then n else n + n)%N -> size w = nb ->
  GrayCode.weight hom (bits w) = N.of_nat (wgt hom n w).
Proof. by case: hom => -> sw; rewrite /GrayCode.weight /wgt ?wt_bits // (swt_bits sw). Qed.

Lemma all_length nb (G : mat) : wf nb G -> List.Forall (fun r => length r = nb) [seq bits r | r <- G].
Proof.
move=> wG; apply/List.Forall_forall => r hr; have {hr} : r \in [seq bits r | r <- G].
  by elim: {wG} G hr => //= a A IH; rewrite inE => -[->|/IH->]; rewrite ?eqxx ?orbT.
by case/mapP => g gG ->; rewrite length_size size_map; move/wfP: wG; apply.
Qed.

Lemma gray_min be hom bs n nb (L S : mat) : nb = (if hom then n else n + n)%N -> wf nb L -> wf nb S -> (0 < nb)%N ->
  (N.of_nat nb < Pack.first_modulus be)%num -> L <> [::] ->
  exists2 d, omap N.to_nat (GrayCode.get_distance_quantum be hom bs nb [seq bits r | r <- L] [seq bits r | r <- S]) = Some d
    & is_min (wgt hom n) (oper nb L S) d.
Proof.
move=> enb wL wS nb0 hM L0.
have ev : hom = false -> PeanoNat.Nat.Even nb by move=> h; rewrite enb h; exists n; lia.
have [d [e [_ [h1 h2]]]] := @GrayCode.distance_ok be hom bs nb _ _ ltac:(by apply/ltP) ev hM (all_length wL) (all_length wS).
exists (N.to_nat d); first by rewrite e.
have val s t : size s = size L -> size t = size S ->
    GrayCode.weight hom (Pack.xorl (GrayCode.combo nb s [seq bits r | r <- L]) (GrayCode.combo nb t [seq bits r | r <- S])) =
    N.of_nat (wgt hom n (vadd (vmulm nb [seq ofb F b | b <- s] L) (vmulm nb [seq ofb F b | b <- t] S))).
  move=> ss st; rewrite (bits_combo uel ael sel wL ss) (bits_combo uel ael sel wS st) -(bits_add uel ael sel) ?size_vmulm //.
  by rewrite (wgt_bits enb) // size_vadd ?size_vmulm.
have inT (s : seq bool) : List.In true s <-> true \in s.
  by elim: s => //= b s IH; rewrite inE; split=> [[->|/IH->]|/orP[/eqP|/IH]]; rewrite ?orbT //; auto.
split.
  have [|s [t [ls [lt [Ts ->]]]]] := h2; first by case: (L) L0.
  rewrite !length_size !size_map in ls lt; rewrite val // Nnat.Nat2N.id.
  exists (vadd (vmulm nb [seq ofb F b | b <- s] L) (vmulm nb [seq ofb F b | b <- t] S)) => //.
  exists [seq ofb F b | b <- s], [seq ofb F b | b <- t]; rewrite !size_map; split=> //.
  by apply/hasP; exists 1; rewrite ?oner_eq0 //; apply/mapP; exists true => //; apply/inT.
move=> w [a [t [sa st /hasP [x xa nx] ->]]].
have := h1 [seq x != 0 | x <- a] [seq x != 0 | x <- t]; rewrite !length_size !size_map => /(_ sa st).
rewrite val ?size_map // !(ofbK uel ael sel) => h.
have /h : List.In true [seq x != 0 | x <- a] by apply/inT/mapP; exists x.
clear; lia.
Qed.
End Gray.

(* the search over all code words *)
Lemma words_mem nb (L S : mat) (el : vec) (w : vec) : wf nb L -> wf nb S -> row_free (sp nb L) ->
  uniq (0 :: el) -> (forall x, x \in 0 :: el) ->
  w \in [seq vadd l s | l <- iter_words (0 :: el) (from_generator nb L) true, s <- iter_words (0 :: el) (from_generator nb S) false]
  <-> oper nb L S w.
Proof.
move=> wL wS fr uel ael.
have okc (G : mat) : wf nb G -> code_ok (from_generator nb G) by move=> wG; apply: dual_ok; apply: mkcode_ok.
have [_ _ _ hl] := iter_words_ok (okc _ wL) uel ael; have [_ hs _ _] := iter_words_ok (okc _ wS) uel ael.
have nzv (v : vec) : (exists j, nth 0 v j <> 0) <-> vany v.
  split=> [[j nj]|/hasP [x /(nthP 0) [i li <-] nx]]; last by exists i; apply/eqP.
  apply/hasP; exists (nth 0 v j); last exact/eqP.
  by apply: mem_nth; rewrite ltnNge; apply/negP => le; apply: nj; rewrite nth_default.
split=> [/allpairsP [[l s] [/= /hl [h1 /nzv h2] /hs h3 ->]]|[a [t [sa st va ->]]]].
  have [sl _] := h1; have [ss _] := h3; rewrite /= in sl ss.
  have [a ha] := proj1 (from_generator_words wL sl) h1; have [t ht] := proj1 (from_generator_words wS ss) h3.
  have [sa _ _] := ha; have [st _ _] := ht; have ea := is_comb_vmulm ha; have et := is_comb_vmulm ht.
  exists a, t; split=> //; last by rewrite -ea -et.
  apply/(vany_rv sa) => a0; move/(vany_rv sl): h2; apply; by rewrite ea rv_vmulm // a0 mul0mx.
apply/allpairsP; exists (vmulm nb a L, vmulm nb t S); split=> //=.
  apply/hl; split; first by apply/(from_generator_words wL (size_vmulm _ _ _)); exists a; apply: vmulm_comb.
  apply/nzv/(vany_rv (size_vmulm _ _ _)); rewrite rv_vmulm // => e0; move/(vany_rv sa): va; apply.
  by apply: (row_free_inj fr); rewrite /= mul0mx.
by apply/hs/(from_generator_words wS (size_vmulm _ _ _)); exists t; apply: vmulm_comb.
Qed.

Lemma oper_ex nb (L S : mat) : L <> [::] -> exists w, oper nb L S w.
Proof.
move=> L0; exists (vadd (vmulm nb (nseq (size L) 1) L) (vmulm nb (nseq (size S) 0) S)).
exists (nseq (size L) 1), (nseq (size S) 0); rewrite !size_nseq; split=> //.
by case: L L0 => //= r L _; rewrite oner_eq0.
Qed.

Lemma words_min (wt : vec -> nat) nb (L S : mat) (el : vec) : wf nb L -> wf nb S -> row_free (sp nb L) -> L <> [::] ->
  uniq (0 :: el) -> (forall x, x \in 0 :: el) ->
  exists2 d, pymin [seq wt (vadd l s) | l <- iter_words (0 :: el) (from_generator nb L) true,
                                        s <- iter_words (0 :: el) (from_generator nb S) false] = Some d
    & is_min wt (oper nb L S) d.
Proof.
move=> wL wS fr L0 uel ael; have hm w := @words_mem nb L S el w wL wS fr uel ael.
set ls := iter_words _ _ true in hm *; set ss := iter_words _ _ false in hm *.
have -> : [seq wt (vadd l s) | l <- ls, s <- ss] = [seq wt w | w <- [seq vadd l s | l <- ls, s <- ss]].
  by rewrite map_allpairs.
have [w0 h0] := oper_ex nb S L0.
have [|d [e /mapP [w hw ed] h2]] := @pyminP [seq wt w | w <- [seq vadd l s | l <- ls, s <- ss]].
  by move/hm: h0; case: [seq vadd l s | l <- ls, s <- ss].
exists d => //; split; first by exists w; [apply/hm | rewrite ed].
by move=> u hu; apply: h2; apply/mapP; exists u => //; apply/hm.
Qed.
End Search.

(* the CSSCode objects for which gauge operators may have been computed before: cached gauge operators are of X type or of
   Z type, and together with the stabilizers they generate the gauge group *)
Definition gauge_ok (F : fieldType) (c : csscode F) : Prop := forall g, c_gauge c = Some g ->
  exists gx gz, [/\ g = bdiag (c_n c) (c_n c) gx gz, size gx = size gz, wf (c_n c) gx /\ wf (c_n c) gz
    & forall v, span (c_n c + c_n c) ((c_get_stabilizer_ops c false false).1 ++ g) v <->
                span (c_n c + c_n c) (css_mat (c_n c) (c_x c) (c_z c)) v].

Section CssCodes.
Variable F : fieldType.
Notation vec := (seq F).
Notation mat := (seq (seq F)).
Implicit Types c : csscode F.

Lemma addsmx_block m1 m2 p1 p2 n1 n2 (A : 'M[F]_(m1, n1)) (B : 'M[F]_(m2, n2)) (C : 'M[F]_(p1, n1)) (D : 'M[F]_(p2, n2)) :
  (block_mx A 0 0 B + block_mx C 0 0 D :=: block_mx (A + C)%MS 0 0 (B + D)%MS)%MS.
Proof.
apply/eqmxP/rV_eqP => u; rewrite -[u]hsubmxK; set a := lsubmx u; set b := rsubmx u; rewrite row_block.
apply/idP/andP => [/sub_addsmxP [[p q] /=]|[/sub_addsmxP [[p q] /= ->] /sub_addsmxP [[r s] /= ->]]].
  rewrite -[p]hsubmxK -[q]hsubmxK !mul_row_block !mulmx0 !addr0 !add0r add_row_mx => /eq_row_mx [-> ->].
  by split; apply: addmx_sub_adds; apply: submxMl.
rewrite -add_row_mx; have e (x : 'rV[F]_m1) (y : 'rV[F]_m2) : row_mx (x *m A) (y *m B) = row_mx x y *m block_mx A 0 0 B.
  by rewrite mul_row_block !mulmx0 addr0 add0r.
have e' (x : 'rV[F]_p1) (y : 'rV[F]_p2) : row_mx (x *m C) (y *m D) = row_mx x y *m block_mx C 0 0 D.
  by rewrite mul_row_block !mulmx0 addr0 add0r.
by rewrite e e'; apply: addmx_sub_adds; apply: submxMl.
Qed.

Lemma sp_cat2 n (A B : mat) : (sp n (A ++ B) :=: sp n A + sp n B)%MS.
Proof.
apply: eqmx_trans (sp_mx n (size_cat A B)) _; rewrite (mx_cat _ _ _ (erefl (size A))); apply: eqmx_sym; exact: addsmxE.
Qed.

Lemma gauge_pauli_ok c : c_ok c -> gauge_ok c ->
  let S x := c_get_stabilizer_ops_pauli c x in
  exists gx gz, [/\ c_get_gauge_ops_pauli c true = Some gx, c_get_gauge_ops_pauli c false = Some gz,
    wf (c_n c) (S true ++ (if c_sub c then gx else [::])) /\ wf (c_n c) (S false ++ (if c_sub c then gz else [::])),
    (sp (c_n c) (S true ++ (if c_sub c then gx else [::])) :=: sp (c_n c) (c_x c))%MS
  & (sp (c_n c) (S false ++ (if c_sub c then gz else [::])) :=: sp (c_n c) (c_z c))%MS].
Proof.
move=> ok gok S; have [okq wX wW _ _] := ok; have [w1 w2 e1 e2] := c_stab_pauli ok; set n := c_n c in wX wW w1 w2 e1 e2 *.
rewrite /c_get_gauge_ops_pauli; case es: (c_sub c) => /=; last first.
  exists [::], [::]; rewrite !cats0; split=> //.
    apply: eqmx_trans e1 _; apply/capmx_idPl; apply/sub_kermxP.
    have [_ h _ _ _] := okq; exact: (proj1 (css_commP wX wW) (h es)).
  apply: eqmx_trans e2 _; apply/capmx_idPl; apply/sub_kermxP.
  have [_ h _ _ _] := okq; have := proj1 (css_commP wX wW) (h es).
  by move/(congr1 trmx); rewrite trmx_mul trmxK trmx0.
have [gx [gz [eg sg [wx wz] hs]]] : exists gx gz, [/\ c_get_gauge_ops c = Some (bdiag n n gx gz), size gx = size gz, wf n gx /\ wf n gz
    & forall v, span (n + n) ((c_get_stabilizer_ops c false false).1 ++ bdiag n n gx gz) v <-> span (n + n) (css_mat n (c_x c) (c_z c)) v].
  case gN: (c_gauge c) => [g|].
    have [gx [gz [eg sg wg hs]]] := gok _ gN; exists gx, gz; split=> //; last by rewrite -eg.
    by rewrite /c_get_gauge_ops es gN /= eg.
  have [gx [gz [L [[s1 s2] [h1 h2 h3 h4 h5]]]]] := c_gauge_typed ok gN.
  exists gx, gz; split=> //; first by rewrite s1 s2.
  by have [_ wG _] := h3; apply: wf_bdiag_inv.
have eS : (sp (n + n) (c_get_stabilizer_ops c false false).1 :=: block_mx (sp n (S true)) 0 0 (sp n (S false)))%MS.
  have [_ e _ _ _] := stab_ops_ok false false okq; rewrite -(proj1 (c_stab_q false false wX wW)) /= in e.
  apply: eqmx_trans e _; apply: eqmx_trans (css_center wX wW) _; apply: block_eqmx; exact: eqmx_sym.
have e3 : (block_mx (sp n (S true) + sp n gx)%MS 0 0 (sp n (S false) + sp n gz)%MS :=: block_mx (sp n (c_x c)) 0 0 (sp n (c_z c)))%MS.
  apply: eqmx_trans (eqmx_sym (addsmx_block _ _ _ _)) _; apply: eqmx_sym; apply: eqmx_trans (eqmx_sym (sp_css wX wW)) _.
  apply: eqmx_trans (eqmx_sym (proj1 (span_eqmx _ _ _) hs)) _; apply: eqmx_trans (sp_cat2 _ _ _) _.
  exact: adds_eqmx eS (sp_css wx wz).
have [e4 e5] := block_inj e3.
exists gx, gz; rewrite eg size_bdiag -sg addnn odd_double divn2 half_double (bdiag_take _ wx) // (bdiag_drop _ _ (erefl _)) //.
rewrite !wf_cat w1 w2 wx wz; split=> //; first exact: eqmx_trans (sp_cat2 _ _ _) e4.
exact: eqmx_trans (sp_cat2 _ _ _) e5.
Qed.

(* everything needed about one type of operators *)
Lemma c_side c (x : bool) : c_ok c -> gauge_ok c -> let n := c_n c in let A := css_mat n (c_x c) (c_z c) in
  exists logs gauge, let stabs := c_get_stabilizer_ops_pauli c x ++ (if c_sub c then gauge else [::]) in
  [/\ c_get_logical_ops_pauli c x = Some logs, c_get_gauge_ops_pauli c x = Some gauge,
      [/\ wf n logs, wf n stabs & size logs = c_dimension c], row_free (sp n logs)
    & forall v, size v = n -> nontrivial n A (emb x n v) <-> oper n logs stabs v].
Proof.
move=> ok gok n A; have [okq wX wW _ _] := ok; have hc := c_counts ok.
have [lx [lz [e1 e2 e3 [w1 w2] lb]]] := c_logicals_pauli ok.
have [gx [gz [g1 g2 [wg1 wg2] e4 e5]]] := gauge_pauli_ok ok gok.
have sx : size lx = c_dimension c.
  have [lx' [lz' [e' s1 s2 _]]] := c_logicals_ok false ok; move: e'; rewrite e3 => -[eb].
  move: e1; rewrite /c_get_logical_ops_pauli e3; case: ifP => // /eqP sL [<-].
  by rewrite /x_part size_map size_takel // sL leq_addr.
have cd := basis_css_dual wX wW w1 w2 sx lb; have [[_ sz] _ h1 h2 h3] := cd.
have [_ cnt] := proj1 (counts_css _ _ wX wW) hc.
have fx : row_free (sp n lx).
  by apply/row_freeP; exists (mx (size lx) n lz)^T; move: h3; rewrite -sx.
have fz : row_free (sp n lz).
  apply/row_freeP; exists (mx (size lz) n lx)^T; apply: trmx_inj; rewrite trmx_mul trmxK trmx1; move: h3; by rewrite -sz.
case: x; [exists lx, gx | exists lz, gz]; split=> // v sv; rewrite (css_comb (g := c_gauge_dimension c) wX wW cd hc _ sv); [|exact: e4| |exact: e5].
  by rewrite /oper sx.
by rewrite /oper sz.
Qed.

Lemma c_search_ok be (el : vec) c (x : bool) : c_ok c -> gauge_ok c -> uniq (0 :: el) -> (forall y, y \in 0 :: el) ->
  (size el = 1%N -> (N.of_nat (c_n c) < Pack.first_modulus be)%num) -> c_dimension c <> 0%N ->
  exists2 d, c_search be (0 :: el) c x = Some d & is_tdist x (c_n c) (css_mat (c_n c) (c_x c) (c_z c)) d.
Proof.
move=> ok gok uel ael hM k0; have [logs [gauge [e1 e2 [w1 w2 sl] fr hop]]] := c_side x ok gok.
rewrite /c_search e1 e2; set n := c_n c in w1 w2 fr hop hM *; set stabs := _ ++ _ in w2 hop *.
have L0 : logs <> [::] by move=> l0; apply: k0; rewrite -sl l0.
have n0 : (0 < n)%N.
  rewrite lt0n; apply/eqP => n0; have := rank_leq_col (sp n logs); have /eqP -> := fr.
  by rewrite n0 leqn0 => /eqP s0; apply: L0; apply: size0nil.
have tr d : is_min (@hwt F) (oper n logs stabs) d -> is_tdist x n (css_mat n (c_x c) (c_z c)) d.
  have so w : oper n logs stabs w -> size w = n by move=> [a [t [_ _ _ ->]]]; rewrite size_vadd ?size_vmulm.
  move=> [[w hw ew] hm]; split; first by exists w; split; [exact: so | apply/hop; first exact: so |].
  by move=> v sv /(hop _ sv) hv; apply: hm.
case: ifP => [/eqP [s1]|_].
  have [d e hd] := gray_min uel ael (congr1 S s1) (be := be) (hom := true) (n := n) 15 erefl w1 w2 n0 (hM s1) L0.
  by exists d => //; apply: tr.
have [d e hd] := words_min (@hwt F) w1 w2 fr L0 uel ael.
by exists d => //; apply: tr.
Qed.
End CssCodes.

(* the stored distances are right *)
Section Exact.
Variable F : fieldType.
Notation vec := (seq F).
Notation mat := (seq (seq F)).
Implicit Types c : csscode F.

Definition c_mat c : mat := css_mat (c_n c) (c_x c) (c_z c).
Definition tval c (x : bool) (o : option dvalue) : Prop :=
  match o with None => True | Some (Dist d) => is_tdist x (c_n c) (c_mat c) d | Some NaN => c_dimension c = 0%N end.
Definition qval c (o : option dvalue) : Prop :=
  match o with None => True | Some (Dist d) => is_qdist (c_n c) (c_mat c) d | Some NaN => c_dimension c = 0%N end.
Definition dstate_ok c (st : dstate) : Prop :=
  [/\ tval c true (ds_x st), tval c false (ds_z st), qval c (ds_d st)
    & ds_eq st -> forall d, is_tdist true (c_n c) (c_mat c) d <-> is_tdist false (c_n c) (c_mat c) d].

Lemma exact_pauli_ok be (el : vec) c st (x : bool) : c_ok c -> gauge_ok c -> dstate_ok c st ->
  uniq (0 :: el) -> (forall y, y \in 0 :: el) ->
  (size el = 1%N -> (N.of_nat (c_n c) < Pack.first_modulus be)%num) -> c_dimension c <> 0%N ->
  exists d st', [/\ c_exact_pauli be (0 :: el) c st x = Some (Dist d, st'), is_tdist x (c_n c) (c_mat c) d & dstate_ok c st'].
Proof.
move=> ok gok sok uel ael hM k0; have [h1 h2 h3 h4] := sok.
have [_ wX wW _ _] := ok.
have k0' : (c_dimension c == 0%N) = false by apply/eqP.
rewrite /c_exact_pauli /c_if_known k0'.
have [m em hm] := @c_search_ok _ be _ _ x ok gok uel ael hM k0; rewrite em.
have new : exists d st', [/\ Some (Dist m, DState (if x || ds_eq st then Some (Dist m) else ds_x st)
     (if ~~ x || ds_eq st then Some (Dist m) else ds_z st)
     (if (if x || ds_eq st then Some (Dist m) else ds_x st) is Some a then
       if (if ~~ x || ds_eq st then Some (Dist m) else ds_z st) is Some b then Some (dmin a b) else ds_d st else ds_d st)
     (ds_eq st)) = Some (Dist d, st'), is_tdist x (c_n c) (c_mat c) d & dstate_ok c st'].
  exists m; eexists; split=> //.
  have tx : tval c true (if x || ds_eq st then Some (Dist m) else ds_x st).
    by case: x hm {em} => //= hm; case: ifP => // /h4 e; apply/e.
  have tz : tval c false (if ~~ x || ds_eq st then Some (Dist m) else ds_z st).
    by case: x hm {em tx} => //= hm; case: ifP => // /h4 e; apply/e.
  split=> //=; move: tx tz; case: (if x || _ then _ else _) => [[a|]|]; case: (if ~~ x || _ then _ else _) => [[b|]|] //=.
  exact: css_qdist.
case: x hm em new => hm em new.
  by case ex: (ds_x st) => [[d|]|]; rewrite ex in h1; [exists d, st; split | case: k0 |].
by case ex: (ds_z st) => [[d|]|]; rewrite ex in h2; [exists d, st; split | case: k0 |].
Qed.

Lemma exact_ok be (el : vec) c st (pauli : option bool) : c_ok c -> gauge_ok c -> dstate_ok c st ->
  uniq (0 :: el) -> (forall y, y \in 0 :: el) ->
  (size el = 1%N -> (N.of_nat (c_n c) < Pack.first_modulus be)%num) -> c_dimension c <> 0%N ->
  exists d st', [/\ c_exact be (0 :: el) c st pauli = Some (Dist d, st'),
    if pauli is Some x then is_tdist x (c_n c) (c_mat c) d else is_qdist (c_n c) (c_mat c) d & dstate_ok c st'].
Proof.
move=> ok gok sok uel ael hM k0; have [h1 h2 h3 h4] := sok.
have [_ wX wW _ _] := ok.
have k0' : (c_dimension c == 0%N) = false by apply/eqP.
have ep x st0 : dstate_ok c st0 -> _ := fun h => @exact_pauli_ok be el c st0 x ok gok h uel ael hM k0.
rewrite /c_exact /c_if_known k0'; case: pauli => [x|].
  have [d [st' [e t o]]] := ep x _ sok; case: x e t => e t.
    by case ex: (ds_x st) => [[d'|]|]; rewrite ex in h1; [exists d', st; split | case: k0 | exists d, st'; split].
  by case ex: (ds_z st) => [[d'|]|]; rewrite ex in h2; [exists d', st; split | case: k0 | exists d, st'; split].
case ed: (ds_d st) => [[d'|]|]; rewrite ed in h3; [by exists d', st; split | by case: k0 |].
have [a [st1 [e1 t1 o1]]] := ep true _ sok; have [b [st2 [e2 t2 o2]]] := ep false _ o1.
by rewrite e1 e2; exists (minn a b), st2; split=> //; apply: css_qdist.
Qed.

Lemma exact_trivial be (el : vec) c st pauli : c_dimension c = 0%N -> exists st', c_exact be el c st pauli = Some (NaN, st').
Proof. by move=> k0; rewrite /c_exact /c_if_known k0 /=; case: pauli => [[]|]; eexists. Qed.

Lemma fresh_ok c (promise : bool) : c_ok c -> (promise -> forall d, is_tdist true (c_n c) (c_mat c) d <-> is_tdist false (c_n c) (c_mat c) d) ->
  dstate_ok c (DState None None None (promise || (c_x c == c_z c))).
Proof.
case=> _ wX wW _ _ hp; split=> //= /orP [/hp //|/eqP e] d.
have sw v : size v = c_n c -> nontrivial (c_n c) (c_mat c) (emb true (c_n c) v) <-> nontrivial (c_n c) (c_mat c) (emb false (c_n c) v).
  by move=> sv; rewrite /c_mat !nontrivial_emb // e.
by split=> -[[v [sv nv ev]] h]; (split; first by exists v; split=> //; apply/sw) => u su nu; apply: h => //; apply/sw.
Qed.
End Exact.

Section Random.
Variable F : fieldType.
Notation vec := (seq F).
Notation mat := (seq (seq F)).
Implicit Types c : csscode F.

Lemma random_arrayP fuel len p (rnd : nat -> vec) i a : random_array fuel len p rnd i = Some a -> size a = len /\ p a.
Proof. by elim: fuel i => //= f IH i; case: ifP => // /negbFE /eqP s; case: ifP => [pa [<-]|_ /IH]. Qed.

Lemma rv_vmulm_cat n (a : vec) (A B : mat) : size a = (size A + size B)%N ->
  rv n (vmulm n a (A ++ B)) = rv (size A) (take (size A) a) *m sp n A + rv (size B) (drop (size A) a) *m sp n B.
Proof.
move=> sa; have st : size (take (size A) a) = size A by rewrite size_takel // sa leq_addr.
have e : mx (size A + size B) n (A ++ B) = col_mx (sp n A) (sp n B) by rewrite (mx_cat _ _ _ (erefl (size A))).
have h : rv (size (A ++ B)) a *m sp n (A ++ B) = rv (size A + size B) a *m mx (size A + size B) n (A ++ B).
  by rewrite /sp size_cat.
rewrite rv_vmulm ?size_cat // h e -[a in LHS](cat_take_drop (size A)) rv_cat // mul_row_col.
by rewrite /sp.
Qed.

(* the matrix form of "w has zero products with the checks H" *)
Lemma word_ker n (H : mat) (w : vec) : wf n H -> size w = n -> is_word n H w <-> (rv n w <= kermx (sp n H)^T)%MS.
Proof.
by move=> wH sw; rewrite is_wordE //; split=> h; apply/sub_kermxP.
Qed.

(* one type of operators: logical operators and stabilizers of the type x have zero products with the checks of the other
   type, and the logical operators are independent modulo checks of the same type *)
Lemma c_parts c (x : bool) : c_ok c -> let n := c_n c in
  exists l m, [/\ c_get_logical_ops_pauli c x = Some l, c_get_logical_ops_pauli c (~~ x) = Some m,
    [/\ wf n l, wf n m, size l = c_dimension c & size m = c_dimension c],
    [/\ mx (c_dimension c) n l *m (sp n (c_checks c (~~ x)))^T = 0, mx (c_dimension c) n m *m (sp n (c_checks c x))^T = 0
      & mx (c_dimension c) n l *m (mx (c_dimension c) n m)^T = 1%:M]
  & [/\ wf n (c_get_stabilizer_ops_pauli c x), wf n (c_checks c x),
     (sp n (c_get_stabilizer_ops_pauli c x) :=: sp n (c_checks c x) :&: kermx (sp n (c_checks c (~~ x)))^T)%MS
   & (n + \rank (sp n (c_checks c x) *m (sp n (c_checks c (~~ x)))^T) =
        c_dimension c + (\rank (sp n (c_checks c x)) + \rank (sp n (c_checks c (~~ x)))))%N]].
Proof.
move=> ok n; have [okq wX wW _ _] := ok; have hc := c_counts ok.
have [lx [lz [e1 e2 e3 [w1 w2] lb]]] := c_logicals_pauli ok.
have sx : size lx = c_dimension c.
  move: e1; rewrite /c_get_logical_ops_pauli e3; case: ifP => // /eqP sL [<-].
  by rewrite /x_part size_map size_takel // sL leq_addr.
have [[_ sz] _ h1 h2 h3] := basis_css_dual wX wW w1 w2 sx lb.
have [eg cnt] := proj1 (counts_css _ _ wX wW) hc; rewrite eg in cnt.
have [s1 s2 s3 s4] := c_stab_pauli ok.
case: x; [exists lx, lz | exists lz, lx]; split=> //=.
  split=> //; apply: trmx_inj; by rewrite trmx_mul trmxK h3 trmx1.
split=> //; have -> : \rank (sp n (c_z c) *m (sp n (c_x c))^T) = \rank (sp n (c_x c) *m (sp n (c_z c))^T) by rewrite -mxrank_tr trmx_mul trmxK.
by rewrite cnt [(_ + \rank (sp n (c_z c)))%N]addnC.
Qed.

Lemma nontrivial_side c x (v : vec) : c_ok c -> size v = c_n c ->
  nontrivial (c_n c) (c_mat c) (emb x (c_n c) v) <-> tnon (c_n c) (c_checks c x) (c_checks c (~~ x)) v.
Proof. by case=> _ wX wW _ _ sv; rewrite /c_mat nontrivial_emb //; case: x. Qed.

Lemma comm_emb c x (v : vec) : c_ok c -> size v = c_n c ->
  (forall r, r \in c_mat c -> symp (c_n c) r (emb x (c_n c) v) = 0) <-> is_word (c_n c) (c_checks c (~~ x)) v.
Proof.
case=> _ wX wW _ _ sv; rewrite (comm_row (wf_css wX wW)) ?size_emb ?sv // (scomp_eqmx (sp_css wX wW)) rv_emb //.
by case: x; rewrite row_scomp_block sub0mx ?andbT ?andTb word_ker.
Qed.

Lemma random_op_ok c x ensure fuel rnd w : c_ok c -> c_random_logical_op c x ensure fuel rnd = Some w ->
  [/\ size w = c_n c, is_word (c_n c) (c_checks c (~~ x)) w
    & ensure -> nontrivial (c_n c) (c_mat c) (emb x (c_n c) w)].
Proof.
move=> ok; have [l [m [e1 e2 [w1 w2 s1 s2] [h1 h2 h3] [ws wP eS cnt]]]] := c_parts x ok.
rewrite /c_random_logical_op e1; set n := c_n c in w1 w2 h1 h2 h3 ws wP eS cnt *.
set S := c_get_stabilizer_ops_pauli c x in ws eS *; case E: random_array => [a|] // [<-].
have [sa pa] := random_arrayP E; rewrite size_cat in sa.
have e := rv_vmulm_cat n sa; set u := rv (size l) _ in e; set t := rv (size S) _ in e.
have SW : (sp n S <= kermx (sp n (c_checks c (~~ x)))^T)%MS by rewrite eS capmxSr.
have sw : size (vmulm n a (l ++ S)) = n by rewrite size_vmulm.
have lW : (sp n l <= kermx (sp n (c_checks c (~~ x)))^T)%MS by apply/sub_kermxP; move: h1; rewrite -s1.
have wO : wf n (c_checks c (~~ x)) by have [_ wX wW _ _] := ok; case: (x).
have inW : (rv n (vmulm n a (l ++ S)) <= kermx (sp n (c_checks c (~~ x)))^T)%MS.
  by rewrite e; apply: addmx_sub; [apply: submx_trans lW | apply: submx_trans SW]; apply: submxMl.
split=> //; first by apply/word_ker.
move=> en; apply/nontrivial_side => //; split=> //.
  apply: submx_trans inW _; apply/sub_kermxP.
  have /submxP [D ->] : (sp n (c_checks c (~~ x)) :&: kermx (sp n (c_checks c x))^T <= sp n (c_checks c (~~ x)))%MS by rewrite capmxSl.
  by rewrite trmx_mul mulmxA mulmx_ker mul0mx.
apply/negP; rewrite e => h.
have hu : (u *m sp n l <= sp n (c_checks c x))%MS.
  rewrite -[_ *m _](addrK (t *m sp n S)) addmx_sub // eqmx_opp; apply: submx_trans (submxMl _ _) _.
  by rewrite eS capmxSl.
rewrite en in pa; rewrite -s1 in pa.
have st : size (take (size l) a) = size l by rewrite size_takel // sa leq_addr.
move/(vany_rv st): pa; apply; rewrite -/u; move: u hu {e h t}; rewrite /sp s1 => u hu.
exact: side_mod h2 h3 _ hu.
Qed.

Lemma mulmv_cat (A B : mat) (v : vec) : mulmv (A ++ B) v = mulmv A v ++ mulmv B v.
Proof. exact: map_cat. Qed.

Lemma bound_loop_ok fuel c x rnd dec f0 i b : c_ok c -> c_bound_loop fuel c x rnd dec f0 i = Some b ->
  exists v, [/\ size v = c_n c, nontrivial (c_n c) (c_mat c) (emb x (c_n c) v) & hwt v = b].
Proof.
move=> ok; elim: fuel i => //= f IH i; case E: c_random_logical_op => [w|] //.
case: ifP => // /negbFE /eqP sc; case: ifP => [/eqP e|_]; last exact: IH.
case=> <-; set v := dec i _ _ in sc e *; exists v; split=> //.
have [sw ww _] := random_op_ok ok E; rewrite negbK in ww.
move: e; rewrite /mulmv map_rcons => /rcons_inj[e1 e2].
have [_ wX wW _ _] := ok.
have wO : wf (c_n c) (c_checks c (~~ x)) by case: (x).
have wS : wf (c_n c) (c_checks c x) by case: (x).
have hv := proj1 (word_ker wO sc) (mulmv_word sc wO e1).
apply/nontrivial_side => //; split=> //.
  apply: submx_trans hv _; apply/sub_kermxP.
  have /submxP [D ->] : (sp (c_n c) (c_checks c (~~ x)) :&: kermx (sp (c_n c) (c_checks c x))^T <= sp (c_n c) (c_checks c (~~ x)))%MS by rewrite capmxSl.
  by rewrite trmx_mul mulmxA mulmx_ker mul0mx.
apply/negP => /submxP [D eD].
have /sub_kermxP hw := proj1 (word_ker wS sw) ww.
have := dot_rv sw sc; rewrite e2 eD trmx_mul mulmxA hw mul0mx => /matrixP /(_ 0 0); rewrite !mxE eqxx mulr1n => /eqP.
by rewrite eq_sym oner_eq0.
Qed.

Lemma hwt_le_n n (v : vec) : size v = n -> (hwt v <= n)%N.
Proof. by move=> <-; apply: count_size. Qed.

Lemma qwt_le_n n (v : vec) : (qwt n v <= n)%N.
Proof. by rewrite -[X in (_ <= X)%N](size_iota 0 n); apply: count_size. Qed.

(* d is the distance asked for *)
Definition dist_for c (pauli : option bool) (d : nat) : Prop :=
  if pauli is Some x then is_tdist x (c_n c) (c_mat c) d else is_qdist (c_n c) (c_mat c) d.

Lemma one_bound_ok c pauli choice fuel rnd dec b : c_ok c -> c_one_bound c pauli choice fuel rnd dec = Some b ->
  let x := if pauli is Some x then x else choice in
  exists v, [/\ size v = c_n c, nontrivial (c_n c) (c_mat c) (emb x (c_n c) v) & hwt v = b].
Proof. by move=> ok h x; apply: bound_loop_ok h. Qed.

Lemma one_bound_le c pauli choice fuel rnd dec b d : c_ok c -> c_one_bound c pauli choice fuel rnd dec = Some b ->
  dist_for c pauli d -> (d <= b)%N.
Proof.
move=> ok h; have [v [sv nv <-]] := one_bound_ok ok h; case: pauli {h} nv => [x|] nv [_ hd]; first exact: hd.
by have := hd _ nv; rewrite qwt_emb.
Qed.

Lemma trials_le m t cutoff c pauli choice fuel rnd dec best b d : c_ok c -> dist_for c pauli d -> (d <= best)%N ->
  c_trials m t cutoff c pauli choice fuel rnd dec best = Some b -> (d <= b)%N /\ (b <= best)%N.
Proof.
move=> ok hd; elim: m t best => [|m IH] t best le /=; first by case=> <-.
case: ifP => _; first by case=> <-.
case E: c_one_bound => [b1|] // /IH h; have [|h1 h2] := h.
  by rewrite leq_min le (one_bound_le ok E hd).
by split=> //; apply: leq_trans h2 (geq_minl _ _).
Qed.

Lemma bound_ok num_trials cutoff c st pauli choice fuel rnd dec b d : c_ok c -> dstate_ok c st -> dist_for c pauli d ->
  c_distance_bound num_trials cutoff c st pauli choice fuel rnd dec = Some b -> exists2 k, b = Dist k & (d <= k <= c_n c)%N.
Proof.
move=> ok [h1 h2 h3 _] hd; have dn : (d <= c_n c)%N.
  by case: pauli hd => [x|] [[v]]; [case=> sv _ <- _; apply: hwt_le_n | move=> _ <- _; apply: qwt_le_n].
have [_ wX wW _ _] := ok.
have k0 : c_dimension c <> 0%N.
  move=> k0; have hc := c_counts ok; have nn v x : size v = c_n c -> ~ nontrivial (c_n c) (c_mat c) (emb x (c_n c) v).
    move=> sv nv; have [lx [lz [e1 e2 e3 [w1 w2] lb]]] := c_logicals_pauli ok; rewrite k0 in lb hc.
    have [sL _ _] := proj1 lb; move: sL; rewrite size_bdiag => /eqP; rewrite addn_eq0 => /andP [/eqP s1 /eqP s2].
    have cd := basis_css_dual wX wW w1 w2 s1 lb.
    have [a [t [/size0nil sa _ va _]]] := proj1 (@css_comb _ x _ _ _ _ _ _ _ (if x then c_x c else c_z c) v wX wW cd hc (eqmx_refl _) sv) nv.
    by rewrite sa in va.
  case: pauli hd => [x|]; first by case=> -[v [sv nv _]] _; apply: nn nv.
  case=> -[v nv _] _; have [sv a1 a2] := proj1 (nontrivialE _ (wf_css wX wW)) nv.
  have sa := half_take sv; have sb := half_drop sv.
  move: a1 a2; rewrite (scomp_eqmx (css_center wX wW)) (sp_css wX wW) -[v in rv _ v](cat_take_drop (c_n c)) rv_cat //.
  rewrite row_scomp_block row_block negb_and => /andP [ha hb] /orP [na|nb].
    by apply: (nn (take (c_n c) v) true sa); apply/nontrivial_emb.
  by apply: (nn (drop (c_n c) v) false sb); apply/nontrivial_emb.
have k0' : (c_dimension c == 0%N) = false by apply/eqP.
have uq (P : Prop) d1 d2 (A : mat) n x : is_tdist x n A d1 -> is_tdist x n A d2 -> d1 = d2.
  move=> [[v [sv nv ev]] m1] [[u [su nu eu]] m2]; apply/eqP; rewrite eqn_leq -{1}eu -{2}ev.
  by rewrite m1 // m2.
have uqq d1 d2 (A : mat) n : is_qdist n A d1 -> is_qdist n A d2 -> d1 = d2.
  by move=> [[v nv ev] m1] [[u nu eu] m2]; apply/eqP; rewrite eqn_leq -{1}eu -{2}ev m1 // m2.
have new : omap Dist (c_trials num_trials 0 cutoff c pauli choice fuel rnd dec (c_n c)) = Some b -> exists2 k, b = Dist k & (d <= k <= c_n c)%N.
  case E: c_trials => [m|] // [<-]; exists m => //; apply/andP; exact: trials_le ok hd dn E.
rewrite /c_distance_bound /c_if_known k0' /=; case: pauli hd new => [[]|] hd new.
- case ex: (ds_x st) => [[m|]|] //; rewrite ex in h1; [move=> [<-] | by case: k0].
  by exists m => //; rewrite (uq True _ _ _ _ _ h1 hd) leqnn.
- case ex: (ds_z st) => [[m|]|] //; rewrite ex in h2; [move=> [<-] | by case: k0].
  by exists m => //; rewrite (uq True _ _ _ _ _ h2 hd) leqnn.
case ex: (ds_d st) => [[m|]|] //; rewrite ex in h3; [move=> [<-] | by case: k0].
by exists m => //; rewrite (uqq _ _ _ _ h3 hd) leqnn.
Qed.
End Random.
