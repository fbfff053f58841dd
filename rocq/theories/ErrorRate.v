(* Sampling of errors in the logical error rate estimators: model of qldpc/codes/common.py:606-686 and 2298-2416 around the
   bookkeeping in SampleAlloc.v.  Random numbers are quantified: the arrays returned by random.sample and np.random.choice are
   inputs of the model. *)
From mathcomp Require Import all_ssreflect all_algebra zify.
From Verif Require Import LinAlg RowReduce Classical ClassicalProofs ClassicalProofs2 Symplectic Quantum QuantumProofs
  QuantumPerm QuantumStab QuantumLogs QuantumOps.
From Verif Require Import Css CssLogs CssProofs CssGauge QuantumDist ClassicalDist CssDist SampleAlloc Lookup Decoders CssStack.
Set Implicit Arguments.
Unset Strict Implicit.
Unset Printing Implicit Defensive.
Import GRing.Theory Num.Theory Order.TTheory.
Local Open Scope ring_scope.

Section Model.
Variable F : fieldType.
Notation vec := (seq F).
Notation mat := (seq (seq F)).

(* common.py:672-673, 2395-2398 and 2406-2409: error = np.zeros(n); error[locations] = values *)
Definition place (n : nat) (locs : seq nat) (vals : vec) : vec :=
  foldl (fun e t => set_nth 0 e t.1 t.2) (nseq n 0) (zip locs vals).

(* common.py:671-678: one sample of ClassicalCode; dec is the direct decoder; None is an exception of the decoder *)
Definition classical_fails (n : nat) (dec : vec -> option vec) (s : seq nat * vec) : option bool :=
  omap (@vany F) (dec (place n s.1 s.2)).

(* common.py:2390-2409: one sample of CSSCode: locations, labels 1, 2, 3 of Pauli operators, and the values at the locations
   of Z-type and of X-type errors *)
Record sample := Sample { s_locs : seq nat; s_paulis : seq nat; s_zs : vec; s_xs : vec }.
Definition locs_z (s : sample) : seq nat := mask [seq odd p | p <- s_paulis s] (s_locs s).
Definition locs_x (s : sample) : seq nat := mask [seq (1 < p)%N | p <- s_paulis s] (s_locs s).
Definition error_z (n : nat) (s : sample) : vec := place n (locs_z s) (s_zs s).
Definition error_x (n : nat) (s : sample) : vec := place n (locs_x s) (s_xs s).

(* common.py:2394-2412: one sample of CSSCode, with direct decoders; None is an exception of a decoder *)
Definition css_fails (n : nat) (dec_x dec_z : vec -> option vec) (lx lz : mat) (s : sample) : option bool :=
  if dec_z (error_z n s) is Some rz then
    if vany (mulmv lx rz) then Some true
    else if dec_x (error_x n s) is Some rx then Some (vany (mulmv lz rx)) else None
  else None.

(* common.py:669-678 and 2388-2412: number of failures *)
Fixpoint count_failures (S : Type) (fails : S -> option bool) (ss : seq S) : option nat :=
  if ss is s :: ss' then
    if fails s is Some b then omap (addn b) (count_failures fails ss') else None
  else Some 0%N.

(* common.py:639-662 and 2346-2372: the function returned by get_logical_error_rate_func, applied to p; draw w i is the i-th
   sample of weight w.  None stands for all exceptions *)
Definition error_rate (S : Type) (fuel num_samples n : nat) (p_max : rat) (fails : S -> option bool) (draw : nat -> nat -> S)
    (p : rat) : option (rat * rat) :=
  if sample_allocation fuel num_samples n p_max is Some a then
    if all_some (mkseq (fun k => count_failures fails (mkseq (draw k.+1) (nth 0%N a k.+1))) (size a).-1) is Some fs then
      if estimates a fs is Some es then logical_error_rate n p_max es p else None
    else None
  else None.

(* common.py:606-662: ClassicalCode.get_logical_error_rate_func.  Simplification: the decoder made by get_decoder for a matrix
   is an indirect one, modelled by a function `dec` of the matrix and the syndrome (lines 635-637) *)
Definition classical_rate (fuel num_samples : nat) (p_max : rat) (dec : mat -> vec -> option vec)
    (draw : nat -> nat -> seq nat * vec) (c : ccode F) (p : rat) : option (rat * rat) :=
  error_rate fuel num_samples (cc_n c) p_max (classical_fails (cc_n c) (direct_decode (cc_mat c) (dec (cc_mat c)))) draw p.

(* common.py:2331-2343 with 2394-2412: the decoders and logical operators of a CSS code *)
Definition css_sample_fails (dec : mat -> vec -> option vec) (c : csscode F) (lx lz : mat) (s : sample) : option bool :=
  let sx := c_get_stabilizer_ops_pauli c true in
  let sz := c_get_stabilizer_ops_pauli c false in
  css_fails (c_n c) (direct_decode sz (dec sz)) (direct_decode sx (dec sx)) lx lz s.

(* common.py:2298-2374: CSSCode.get_logical_error_rate_func; same simplification *)
Definition css_rate (fuel num_samples : nat) (p_max : rat) (dec : mat -> vec -> option vec) (draw : nat -> nat -> sample)
    (c : csscode F) (p : rat) : option (rat * rat) :=
  match c_get_logical_ops_pauli c true, c_get_logical_ops_pauli c false with
  | Some lx, Some lz => error_rate fuel num_samples (c_n c) p_max (css_sample_fails dec c lx lz) draw p
  | _, _ => None
  end.

(* common.py:2323-2329: the probabilities of the labels 1, 2, 3, from relative probabilities of X, Y and Z; None is a division
   by zero.  Simplification: exact rational numbers *)
Definition label_probs (bias : rat * rat * rat) : option (seq rat) :=
  let s := bias.2 + bias.1.1 + bias.1.2 in
  if s == 0 then None else Some [:: bias.2 / s; bias.1.1 / s; bias.1.2 / s].
End Model.

Section Place.
Variable F : fieldType.
Notation vec := (seq F).
Notation mat := (seq (seq F)).

Lemma place_ok n (locs : seq nat) (vals e : vec) : uniq locs -> all (fun i => i < n)%N locs -> size vals = size locs -> size e = n ->
  let r := foldl (fun e t => set_nth 0 e t.1 t.2) e (zip locs vals) in
  size r = n /\ forall j, nth 0 r j = if j \in locs then nth 0 vals (index j locs) else nth 0 e j.
Proof.
elim: locs vals e => [|i locs IH] [|x vals] e //= /andP [ni u] /andP [li al] [sv] se.
have se' : size (set_nth 0 e i x) = n by rewrite size_set_nth se; apply/maxn_idPr.
have [h1 h2] := IH vals _ u al sv se'; split=> // j; rewrite h2 inE nth_set_nth /= [i == j]eq_sym.
by case: (eqVneq j i) => [->|ne] /=; first rewrite (negbTE ni).
Qed.

Lemma size_place n (locs : seq nat) (vals : vec) : uniq locs -> all (fun i => i < n)%N locs -> size vals = size locs ->
  size (place n locs vals) = n.
Proof. by move=> u al sv; have [] := place_ok u al sv (size_nseq n 0). Qed.
Lemma nth_place n (locs : seq nat) (vals : vec) j : uniq locs -> all (fun i => i < n)%N locs -> size vals = size locs ->
  nth 0 (place n locs vals) j = if j \in locs then nth 0 vals (index j locs) else 0.
Proof. by move=> u al sv; have [_ ->] := place_ok u al sv (size_nseq n 0); rewrite nth_nseq if_same. Qed.

Lemma nth_place_neq0 n (locs : seq nat) (vals : vec) j : uniq locs -> all (fun i => i < n)%N locs -> size vals = size locs ->
  all (fun x => x != 0) vals -> (nth 0 (place n locs vals) j != 0) = (j \in locs).
Proof.
move=> u al sv /allP nz; rewrite nth_place //; case: ifP => [jl|_]; last by rewrite eqxx.
by apply: nz; rewrite mem_nth // sv index_mem.
Qed.

(* the number of positions of a set of distinct positions *)
Lemma count_locs n (P : pred nat) (locs : seq nat) : uniq locs -> all (fun i => i < n)%N locs -> (forall j, P j = (j \in locs)) ->
  count P (iota 0 n) = size locs.
Proof.
move=> u al h; rewrite -size_filter; apply: perm_size; apply: uniq_perm; rewrite ?filter_uniq ?iota_uniq // => j.
by rewrite mem_filter h mem_iota /= add0n; case jl: (j \in locs) => //=; move/allP: al => ->.
Qed.

Lemma hwtE n (v : vec) : size v = n -> hwt v = count (fun j => nth 0 v j != 0) (iota 0 n).
Proof.
move=> sv; rewrite /hwt -{1}[v](mkseq_nth 0) sv /mkseq count_map; exact: eq_count.
Qed.

Lemma hwt_place n (locs : seq nat) (vals : vec) : uniq locs -> all (fun i => i < n)%N locs -> size vals = size locs ->
  all (fun x => x != 0) vals -> hwt (place n locs vals) = size locs.
Proof.
move=> u al sv nz; rewrite (@hwtE n) ?size_place //; apply: count_locs => // j; exact: nth_place_neq0.
Qed.

Lemma mem_mask_map (T : eqType) (P : pred nat) (locs : seq T) (ps : seq nat) i : uniq locs -> size ps = size locs ->
  (i < size locs)%N -> forall x0, (nth x0 locs i \in mask [seq P p | p <- ps] locs) = P (nth 0%N ps i).
Proof.
elim: locs ps i => [|x locs IH] [|p ps] [|i] //= /andP [nx u] [sp] li x0.
  case: (P p); first by rewrite mem_head.
  by apply/negP => /mem_mask; apply/negP.
rewrite -(IH ps i u sp li x0); case: (P p) => //; rewrite inE; case: eqP => // e.
by move: nx; rewrite -e mem_nth.
Qed.
End Place.

Section Residual.
Variable F : fieldType.
Notation vec := (seq F).
Notation mat := (seq (seq F)).
Implicit Types c : csscode F.

Lemma rv_mulmv n (A : mat) (v : vec) k : wf n A -> size v = n -> size A = k -> rv k (mulmv A v) = rv n v *m (mx k n A)^T.
Proof.
move=> /wfP wA sv sA; apply/rowP => i; rewrite !mxE (nth_map [::]) ?sA // (@dotE _ n) //; last by apply: wA; rewrite mem_nth ?sA.
by apply: eq_bigr => j _; rewrite !mxE mulrC.
Qed.

(* an operator of one type that commutes with the stabilizers of the other type is nontrivial iff it does not commute with the
   logical operators of the other type *)
Lemma side_logical n k (P W l m : mat) (v : vec) : size l = k -> mx k n l *m (sp n W)^T = 0 -> mx k n m *m (sp n P)^T = 0 ->
  mx k n l *m (mx k n m)^T = 1%:M ->
  (n + \rank (sp n P *m (sp n W)^T) = k + (\rank (sp n P) + \rank (sp n W)))%N ->
  wf n m -> size m = k -> size v = n -> (rv n v <= kermx (sp n W :&: kermx (sp n P)^T)%MS^T)%MS ->
  vany (mulmv m v) <-> ~~ (rv n v <= sp n P)%MS.
Proof.
move=> sl lW mP lm cnt wm sm sv; rewrite (side_ker lW mP lm cnt) => /sub_addsmxP [[b a] /= e].
have Pm : sp n P *m (mx k n m)^T = 0 by apply: trmx_inj; rewrite trmx_mul trmxK mP trmx0.
have ea : rv k (mulmv m v) = a.
  by rewrite (rv_mulmv wm sv sm) e mulmxDl -!mulmxA Pm lm mulmx0 mulmx1 add0r.
have sk : size (mulmv m v) = k by rewrite size_map.
rewrite (vany_rv sk) ea; split=> [nz|/negP nin a0].
  apply/negP => h; apply: nz; apply: (side_mod mP lm).
  by rewrite -[a *m _](addKr (b *m sp n P)) -e addmx_sub // eqmx_opp submxMl.
by apply: nin; rewrite e a0 mul0mx addr0 submxMl.
Qed.

(* the operators of a residual error *)
Lemma residual c (rx rz : vec) lx lz : c_ok c -> size rx = c_n c -> size rz = c_n c ->
  c_get_logical_ops_pauli c true = Some lx -> c_get_logical_ops_pauli c false = Some lz ->
  is_word (c_n c) (c_get_stabilizer_ops_pauli c false) rx -> is_word (c_n c) (c_get_stabilizer_ops_pauli c true) rz ->
  (vany (mulmv lx rz) || vany (mulmv lz rx)) <-> nontrivial (c_n c) (css_mat (c_n c) (c_x c) (c_z c)) (rx ++ rz).
Proof.
move=> ok sx sz ex ez wx wz; have [_ wX wZ _ _] := ok; set n := c_n c in sx sz wx wz *.
have [l [m [e1 e2 [w1 w2 s1 s2] [h1 h2 h3] [ws wP eS cnt]]]] := c_parts true ok.
move: e1; rewrite ex => -[e1]; move: e2; rewrite ez => -[e2]; subst l m; rewrite /= in h1 h2 h3 eS cnt.
have [_ [_ [_ _ _ _ [ws' wP' eS' cnt']]]] := c_parts false ok; rewrite /= in eS' cnt'; rewrite -/n in ws' wP' eS' cnt'.
have h3' : mx (c_dimension c) n lz *m (mx (c_dimension c) n lx)^T = 1%:M by apply: trmx_inj; rewrite trmx_mul trmxK h3 trmx1.
have kx : (rv n rx <= kermx (sp n (c_z c) :&: kermx (sp n (c_x c))^T)%MS^T)%MS.
  move/(word_ker ws' sx)/sub_kermxP: wx => h; apply/sub_kermxP; apply: trmx_inj; rewrite trmx_mul trmxK trmx0.
  have /submxP [D ->] : (sp n (c_z c) :&: kermx (sp n (c_x c))^T <= sp n (c_get_stabilizer_ops_pauli c false))%MS by rewrite eS'.
  by rewrite -mulmxA -[sp n _ *m _]trmxK trmx_mul trmxK h trmx0 mulmx0.
have kz : (rv n rz <= kermx (sp n (c_x c) :&: kermx (sp n (c_z c))^T)%MS^T)%MS.
  move/(word_ker ws sz)/sub_kermxP: wz => h; apply/sub_kermxP; apply: trmx_inj; rewrite trmx_mul trmxK trmx0.
  have /submxP [D ->] : (sp n (c_x c) :&: kermx (sp n (c_z c))^T <= sp n (c_get_stabilizer_ops_pauli c true))%MS by rewrite eS.
  by rewrite -mulmxA -[sp n _ *m _]trmxK trmx_mul trmxK h trmx0 mulmx0.
have hx := side_logical s1 h1 h2 h3 cnt w2 s2 sx kx.
have hz := side_logical s2 h2 h1 h3' cnt' w1 s1 sz kz.
rewrite (nontrivialE _ (wf_css wX wZ)) (scomp_eqmx (css_center wX wZ)) (sp_css wX wZ) size_cat sx sz rv_cat // row_scomp_block row_block kx kz.
rewrite negb_and; split=> [/orP h|[_ _ /orP h]].
  by split=> //; apply/orP; case: h => h; [right; apply/hz | left; apply/hx].
by apply/orP; case: h => h; [right; apply/hx | left; apply/hz].
Qed.

(* what a direct decoder returns *)
Lemma direct_ok n (H : mat) (dec : vec -> option vec) (e r : vec) : wf n H -> size e = n -> dec (mulmv H e) = Some r -> size r = n ->
  mulmv H r = mulmv H e -> direct_decode H dec e = Some (vsub e r) /\ is_word n H (vsub e r).
Proof.
move=> wH se hd sr hs; have [r' e' [w _]] := direct_decode_word wH se hd sr hs.
by move: e' w; rewrite /direct_decode hd => -[<-].
Qed.

Lemma css_sample_ok c dec lx lz (s : sample F) (cx cz : vec) : c_ok c -> let n := c_n c in
  size (error_x n s) = n -> size (error_z n s) = n ->
  c_get_logical_ops_pauli c true = Some lx -> c_get_logical_ops_pauli c false = Some lz ->
  let sx := c_get_stabilizer_ops_pauli c true in let sz := c_get_stabilizer_ops_pauli c false in
  dec sz (mulmv sz (error_x n s)) = Some cx -> dec sx (mulmv sx (error_z n s)) = Some cz -> size cx = n -> size cz = n ->
  mulmv sz cx = mulmv sz (error_x n s) -> mulmv sx cz = mulmv sx (error_z n s) ->
  exists2 b : bool, css_sample_fails dec c lx lz s = Some b
  & b <-> nontrivial n (css_mat n (c_x c) (c_z c)) (vsub (error_x n s) cx ++ vsub (error_z n s) cz).
Proof.
move=> ok n sx sz ex ez hsx hsz dx dz scx scz hx hz.
have [_ [_ [_ _ _ _ [ws _ _ _]]]] := c_parts true ok; have [_ [_ [_ _ _ _ [ws' _ _ _]]]] := c_parts false ok.
have [e1 w1] := direct_ok ws' sx dx scx hx; have [e2 w2] := direct_ok ws sz dz scz hz.
exists (vany (mulmv lx (vsub (error_z n s) cz)) || vany (mulmv lz (vsub (error_x n s) cx))).
  by rewrite /css_sample_fails /css_fails -/n e1 e2; case: ifP.
by apply: residual => //; rewrite size_vsub ?sx ?sz.
Qed.

Lemma count_failures_ok (S : Type) (fails : S -> option bool) (f : S -> bool) (ss : seq S) :
  (forall i, forall s0 : S, (i < size ss)%N -> fails (nth s0 ss i) = Some (f (nth s0 ss i))) -> count_failures fails ss = Some (count f ss).
Proof.
elim: ss => //= s ss IH h; rewrite (h 0%N s) //= IH // => i s0 li; exact: (h i.+1).
Qed.

Lemma error_rate_ok (S : Type) fuel num_samples n p_max (fails : S -> option bool) (f : S -> bool) draw p a :
  0 < p_max <= 1 -> (0 < n)%N -> sample_allocation fuel num_samples n p_max = Some a -> 0 <= p <= p_max ->
  (forall w i, (0 < w < size a)%N -> (i < nth 0%N a w)%N -> fails (draw w i) = Some (f (draw w i))) ->
  exists r, error_rate fuel num_samples n p_max fails draw p = Some r /\
    r.1 = 1 - \sum_(k < size a) binom n p k *
       (if k == 0%N :> nat then 1 else 1 - (count f (mkseq (draw k) (nth 0%N a k)))%:R / (nth 0%N a k)%:R).
Proof.
move=> hm hn ha /andP [p0 pm] hf; have [_ /andP [s1 sn] _ pos _] := allocationP hm hn ha.
have hp : 0 <= p <= 1 by rewrite p0 (le_trans pm) //; case/andP: hm.
pose fs := mkseq (fun k => count f (mkseq (draw k.+1) (nth 0%N a k.+1))) (size a).-1.
have efs : all_some (mkseq (fun k => count_failures fails (mkseq (draw k.+1) (nth 0%N a k.+1))) (size a).-1) = Some fs.
  rewrite /mkseq (@all_some_map _ _ _ (fun k => count f (mkseq (draw k.+1) (nth 0%N a k.+1))) _ 0%N) // => i.
  rewrite size_iota => li; rewrite nth_iota // add0n; apply: count_failures_ok => j s0; rewrite size_mkseq => lj.
  by rewrite nth_mkseq //; apply: hf; rewrite // ltn0Sn -ltn_predRL.
have nf k : (k < (size a).-1)%N -> nth 0%N fs k = count f (mkseq (draw k.+1) (nth 0%N a k.+1)) by move=> lk; rewrite nth_mkseq.
have hle k : (k < (size a).-1)%N -> (nth 0%N fs k <= nth 0%N a k.+1)%N.
  by move=> lk; rewrite nf // (leq_trans (count_size _ _)) // size_mkseq.
have [es ee] : exists es, estimates a fs = Some es.
  rewrite /estimates; case: ifP => [_ | /negbT /negP []]; first by eexists.
  apply/(all_nthP None) => k; rewrite size_mkseq => hk; rewrite nth_mkseq // /estimate; case: eqP => // e0.
  by have := pos k.+1; rewrite e0 /= -ltn_predRL => /(_ hk).
have [se e0 ek _] := estimatesP hle ee.
have sa : size es = size a by rewrite se prednK // ltnW.
have [r er] : exists r, logical_error_rate n p_max es p = Some r.
  by rewrite /logical_error_rate ltNge pm /=; eexists.
have [|_ r1 _] := rateP hp _ er; first by rewrite sa s1.
exists r; rewrite /error_rate ha efs ee; split=> //; rewrite r1 sa; congr (1 - _); apply: eq_bigr => k _; congr (_ * _).
case: k => [[|k] lk] /=; first by rewrite e0.
by rewrite ek ?nf // ltn_predRL.
Qed.
End Residual.
