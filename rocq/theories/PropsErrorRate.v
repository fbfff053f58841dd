(* Property C82: what the logical error rate estimators count (qldpc/codes/common.py). *)
From mathcomp Require Import all_ssreflect all_algebra zify.
From Verif Require Import LinAlg RowReduce Classical ClassicalProofs ClassicalProofs2 Symplectic Quantum QuantumProofs
  Lookup GUF Decoders Css CssProofs CssGauge QuantumDist ClassicalDist CssDist SampleAlloc CssStack ErrorRate
  PropsClassical PropsQuantum PropsSampleAlloc PropsDecoders SmallCodes PropsSmallCodes.
Set Implicit Arguments.
Unset Strict Implicit.
Unset Printing Implicit Defensive.
Import GRing.Theory Num.Theory Order.TTheory.
Local Open Scope ring_scope.

(* ---------------------------------------------------------------------------- specification *)
Section Spec.
Variable F : fieldType.
Notation vec := (seq F).
Notation mat := (seq (seq F)).

(* what random.sample and np.random.choice may return for a sample of weight w: distinct locations, labels 1 (Z), 2 (X), 3 (Y),
   and nonzero values for the parts of Z type and of X type *)
Definition drawn (n w : nat) (s : sample F) : Prop :=
  [/\ uniq (s_locs s), size (s_locs s) = w, all (fun i => i < n)%N (s_locs s), size (s_paulis s) = w
    & [/\ all (fun p => 0 < p < 4)%N (s_paulis s), size (s_zs s) = count odd (s_paulis s), all (fun x => x != 0) (s_zs s),
          size (s_xs s) = count (fun p => 1 < p)%N (s_paulis s) & all (fun x => x != 0) (s_xs s)]].
Definition drawn_classical (n w : nat) (s : seq nat * vec) : Prop :=
  [/\ uniq s.1, size s.1 = w, all (fun i => i < n)%N s.1, size s.2 = w & all (fun x => x != 0) s.2].

(* an indirect decoder returns an error with the given syndrome *)
Definition valid_decoder (n : nat) (H : mat) (dec : vec -> option vec) : Prop :=
  forall e, size e = n -> exists r, [/\ dec (mulmv H e) = Some r, size r = n & mulmv H r = mulmv H e].
(* ... of the least weight *)
Definition minimal_decoder (n : nat) (H : mat) (dec : vec -> option vec) : Prop :=
  forall e, size e = n -> exists r, [/\ dec (mulmv H e) = Some r, size r = n, mulmv H r = mulmv H e & (hwt r <= hwt e)%N].

(* what is left of a sampled error after corrections of its X part (by means of Z stabilizers) and of its Z part *)
Definition leaves (c : csscode F) (dec : mat -> vec -> option vec) (s : sample F) (r : vec) : Prop :=
  let n := c_n c in let sx := c_get_stabilizer_ops_pauli c true in let sz := c_get_stabilizer_ops_pauli c false in
  exists cx cz, [/\ dec sz (mulmv sz (error_x n s)) = Some cx, dec sx (mulmv sx (error_z n s)) = Some cz
                  & r = vsub (error_x n s) cx ++ vsub (error_z n s) cz].
End Spec.

Section Props.
Variable F : fieldType.
Notation vec := (seq F).
Notation mat := (seq (seq F)).
Implicit Types c : csscode F.

Lemma drawn_sizes n w (s : sample F) : drawn n w s ->
  [/\ uniq (locs_z s), all (fun i => i < n)%N (locs_z s), size (s_zs s) = size (locs_z s) & size (error_z n s) = n] /\
  [/\ uniq (locs_x s), all (fun i => i < n)%N (locs_x s), size (s_xs s) = size (locs_x s) & size (error_x n s) = n].
Proof.
case=> u sl al sp [_ sz _ sx _].
have gen (P : pred nat) (vals : vec) : size vals = count P (s_paulis s) -> let l := mask [seq P p | p <- s_paulis s] (s_locs s) in
    [/\ uniq l, all (fun i => i < n)%N l, size vals = size l & size (place n l vals) = n].
  move=> sv l; have ul : uniq l by apply: mask_uniq.
  have all' : all (fun i => i < n)%N l by apply/allP => i /mem_mask /(allP al).
  have sl' : size vals = size l by rewrite sv size_mask ?size_map ?sl // count_map; apply: eq_count.
  by split=> //; apply: size_place.
by split; apply: gen.
Qed.

(* ---------------------------------------------------------------------------- C82 *)
(* a sample of weight w is an error on exactly w qudits, with an X part where the label is 2 or 3, and a Z part where it is 1 or 3 *)
Theorem C82_sampled_error n w (s : sample F) : drawn n w s ->
  [/\ size (error_x n s) = n, size (error_z n s) = n, qwt n (error_x n s ++ error_z n s) = w,
      forall i, (i < w)%N -> let j := nth 0%N (s_locs s) i in let p := nth 0%N (s_paulis s) i in
        (nth 0 (error_x n s) j != 0) = (p \in [:: 2; 3]%N) /\ (nth 0 (error_z n s) j != 0) = (p \in [:: 1; 3]%N)
    & forall j, j \notin s_locs s -> nth 0 (error_x n s) j = 0 /\ nth 0 (error_z n s) j = 0].
Proof.
move=> dr; have [[uz az sz ez] [ux ax sx ex]] := drawn_sizes dr; have [u sl al sp [ap _ nz _ nx]] := dr.
have hx j : (nth 0 (error_x n s) j != 0) = (j \in locs_x s) by apply: nth_place_neq0.
have hz j : (nth 0 (error_z n s) j != 0) = (j \in locs_z s) by apply: nth_place_neq0.
have loc i : (i < w)%N -> let j := nth 0%N (s_locs s) i in let p := nth 0%N (s_paulis s) i in
    (j \in locs_x s) = (p \in [:: 2; 3]%N) /\ (j \in locs_z s) = (p \in [:: 1; 3]%N).
  move=> li /=; rewrite /locs_x /locs_z !mem_mask_map ?sp ?sl //.
  have : (0 < nth 0%N (s_paulis s) i < 4)%N by apply: (allP ap); rewrite mem_nth ?sp.
  by case: (nth _ _ _) => [|[|[|[|p]]]].
have out j : j \notin s_locs s -> (j \in locs_x s) = false /\ (j \in locs_z s) = false.
  by move=> nj; split; apply/negP => /mem_mask; apply/negP.
split=> //.
- rewrite -sl -[RHS](@count_locs n (fun j => j \in s_locs s) (s_locs s)) //; apply: eq_in_count => j; rewrite mem_iota /= add0n => lj.
  rewrite !nth_cat ex lj ltnNge leq_addr /= addKn hx hz.
  case jl: (j \in s_locs s); last by have [-> ->] := out j (negbT jl).
  have li : (index j (s_locs s) < w)%N by rewrite -sl index_mem.
  have [] := loc _ li; rewrite nth_index // => -> ->.
  have : (0 < nth 0%N (s_paulis s) (index j (s_locs s)) < 4)%N by apply: (allP ap); rewrite mem_nth ?sp.
  by case: (nth _ _ _) => [|[|[|[|p]]]].
- by move=> i li /=; rewrite hx hz; apply: loc.
by move=> j /out [jx jz]; split; apply/eqP; apply/negPn; rewrite ?hx ?hz ?jx ?jz.
Qed.

(* with relative probabilities x, y, z of X, Y and Z errors: the probability of labels 2 and 3 (errors with an X part) and that
   of labels 1 and 3 (errors with a Z part) *)
Theorem C82_bias (x y z : rat) : 0 <= x -> 0 <= y -> 0 <= z -> 0 < x + y + z ->
  exists ps, [/\ label_probs (x, y, z) = Some ps, size ps = 3%N, \sum_(p <- ps) p = 1 /\ all (fun p => 0 <= p) ps,
    nth 0 ps (2 - 1) + nth 0 ps (3 - 1) = (x + y) / (x + y + z) & nth 0 ps (1 - 1) + nth 0 ps (3 - 1) = (z + y) / (x + y + z)].
Proof.
move=> x0 y0 z0 s0; have e : z + x + y = x + y + z by rewrite addrC addrA [y + z + x]addrC addrA.
rewrite /label_probs /= e gt_eqF //; eexists; split; [by [] | by [] | | |]; rewrite ?mulrDl //.
rewrite !big_cons big_nil addr0 -!mulrDl addrA e divff ?gt_eqF //; split=> //=.
by rewrite !divr_ge0 // ltW.
Qed.

(* for decoders that return errors with the given syndromes, a sample is counted as a failure if and only if the error that
   is left after decoding is a nontrivial logical operator; there are no exceptions *)
Theorem C82_failure c dec lx lz w (s : sample F) : c_ok c -> drawn (c_n c) w s ->
  (forall x, valid_decoder (c_n c) (c_get_stabilizer_ops_pauli c x) (dec (c_get_stabilizer_ops_pauli c x))) ->
  c_get_logical_ops_pauli c true = Some lx -> c_get_logical_ops_pauli c false = Some lz ->
  exists b r, [/\ css_sample_fails dec c lx lz s = Some b, leaves c dec s r
    & b <-> nontrivial (c_n c) (css_mat (c_n c) (c_x c) (c_z c)) r].
Proof.
move=> ok dr hd ex ez; have [[_ _ _ sz] [_ _ _ sx]] := drawn_sizes dr.
have [cx [e1 s1 h1]] := hd false _ sx; have [cz [e2 s2 h2]] := hd true _ sz.
have [b eb hb] := css_sample_ok ok sx sz ex ez e1 e2 s1 s2 h1 h2.
by exists b, (vsub (error_x (c_n c) s) cx ++ vsub (error_z (c_n c) s) cz); split=> //; exists cx, cz.
Qed.

(* decoders that return errors of the least weight never fail on samples of weight w if 2 w is below the distance *)
Theorem C82_correctable c dec lx lz w (s : sample F) : c_ok c -> drawn (c_n c) w s ->
  (forall x, minimal_decoder (c_n c) (c_get_stabilizer_ops_pauli c x) (dec (c_get_stabilizer_ops_pauli c x))) ->
  c_get_logical_ops_pauli c true = Some lx -> c_get_logical_ops_pauli c false = Some lz ->
  (forall v, nontrivial (c_n c) (css_mat (c_n c) (c_x c) (c_z c)) v -> (2 * w < qwt (c_n c) v)%N) ->
  css_sample_fails dec c lx lz s = Some false.
Proof.
move=> ok dr hd ex ez hv; have [[_ _ _ sz] [_ _ _ sx]] := drawn_sizes dr; set n := c_n c in sx sz hv *.
have [_ _ hw _ _] := C82_sampled_error dr; rewrite -/n in hw.
have [] := qwt_cat sx sz; rewrite hw => w1 w2.
have [cx [e1 s1 h1 m1]] := hd false _ sx; have [cz [e2 s2 h2 m2]] := hd true _ sz.
have [_ [_ [_ _ _ _ [ws _ _ _]]]] := c_parts true ok; have [_ [_ [_ _ _ _ [ws' _ _ _]]]] := c_parts false ok.
have [d1 iw1] := direct_ok ws' sx e1 s1 h1; have [d2 iw2] := direct_ok ws sz e2 s2 h2.
rewrite /css_sample_fails /css_fails -/n d1 d2.
set rx := vsub _ cx in d1 iw1 *; set rz := vsub _ cz in d2 iw2 *.
have srx : size rx = n by rewrite size_vsub ?sx. 
have srz : size rz = n by rewrite size_vsub ?sz.
have s0 : size (nseq n (0 : F)) = n by rewrite size_nseq.
have word0 (H : mat) : wf n H -> is_word n H (nseq n 0).
  by move=> wH; split=> // r _; rewrite big1 // => j _; rewrite nth_nseq if_same mulr0.
have dot0 (m : mat) : vany (mulmv m (nseq n 0)) = false.
  apply/negbTE; rewrite -all_predC; apply/allP => y /mapP [r _ ->] /=; rewrite negbK; apply/eqP.
  by rewrite /dot; elim: (r) (n) => [|a r' IH] [|m'] //=; rewrite ?IH ?mulr0 ?addr0.
have wsub (u v : vec) : size u = n -> size v = n -> (hwt (vsub u v) <= hwt u + hwt v)%N.
  move=> su sv; rewrite !(@hwtE _ n) ?size_vsub ?su // -count_predUI (leq_trans _ (leq_addr _ _)) //.
  apply: sub_count => j /=; case: (ltnP j n) => lj; last by rewrite nth_default ?size_vsub ?su ?eqxx.
  rewrite nth_vsub ?su ?sv //.
  by apply: contraR; rewrite negb_or !negbK => /andP [/eqP -> /eqP ->]; rewrite subrr.
have fx : vany (mulmv lz rx) = false.
  apply/negbTE/negP => h.
  have /hv : nontrivial n (css_mat n (c_x c) (c_z c)) (emb true n rx).
    by apply/(residual ok srx s0 ex ez iw1 (word0 _ ws)); rewrite h orbT.
  rewrite qwt_emb // => h'; have := wsub _ _ sx s1; move: h' w1 m1; rewrite -/rx; clear; lia.
have fz : vany (mulmv lx rz) = false.
  apply/negbTE/negP => h.
  have /hv : nontrivial n (css_mat n (c_x c) (c_z c)) (emb false n rz).
    by apply/(residual ok s0 srz ex ez (word0 _ ws') iw2); rewrite h.
  rewrite qwt_emb // => h'; have := wsub _ _ sz s2; move: h' w2 m2; rewrite -/rz; clear; lia.
by rewrite fz fx.
Qed.

(* the reported rate: F_k is the fraction of samples of weight k whose residual error is trivial *)
Theorem C82_rate fuel num_samples p_max dec draw c p a : c_ok c -> (0 < c_n c)%N -> 0 < p_max <= 1 ->
  sample_allocation fuel num_samples (c_n c) p_max = Some a -> 0 <= p <= p_max ->
  (forall x, valid_decoder (c_n c) (c_get_stabilizer_ops_pauli c x) (dec (c_get_stabilizer_ops_pauli c x))) ->
  (forall w i, (0 < w < size a)%N -> (i < nth 0%N a w)%N -> drawn (c_n c) w (draw w i)) ->
  exists rate (failed : nat -> nat -> bool), [/\ css_rate fuel num_samples p_max dec draw c p = Some rate,
      forall w i, (0 < w < size a)%N -> (i < nth 0%N a w)%N ->
        failed w i <-> exists2 r, leaves c dec (draw w i) r & nontrivial (c_n c) (css_mat (c_n c) (c_x c) (c_z c)) r
    & rate.1 = 1 - \sum_(k < size a) 'C(c_n c, k)%:R * p ^+ k * (1 - p) ^+ (c_n c - k) *
        (if k == 0%N :> nat then 1 else 1 - (\sum_(i < nth 0%N a k) failed k i)%:R / (nth 0%N a k)%:R)].
Proof.
move=> ok hn hm ha hp hd hdr; have [h1 h2 _ _ _] := c_lxz ok.
pose f s := css_sample_fails dec c (c_lx c) (c_lz c) s == Some true.
have hf w i : (0 < w < size a)%N -> (i < nth 0%N a w)%N -> 
    css_sample_fails dec c (c_lx c) (c_lz c) (draw w i) = Some (f (draw w i)).
  move=> hw hi; have [b [r [eb _ _]]] := C82_failure ok (hdr w i hw hi) hd h1 h2.
  by rewrite /f eb; case: (b).
have [r [er e1]] := error_rate_ok hm hn ha hp hf; exists r, (fun w i => f (draw w i)); split.
- by rewrite /css_rate h1 h2.
- move=> w i hw hi; have [b [r' [eb hl hb]]] := C82_failure ok (hdr w i hw hi) hd h1 h2.
  rewrite /f eb; split=> [/eqP [e]|[r2 [cx [cz [x1 x2 x3]]] hr]].
    by exists r' => //; apply/hb; rewrite e.
  have [cx' [cz' [y1 y2 y3]]] := hl; move: y1 y2; rewrite x1 x2 => -[y1] [y2].
  by rewrite (proj2 hb) //; rewrite y3 -y1 -y2 -x3.
rewrite e1; congr (1 - _); apply: eq_bigr => k _; congr (_ * _); case: ifP => // _; congr (1 - _%:R / _).
by rewrite /mkseq count_map -sum1_count big_mkcond /= -[X in iota 0 X]subn0 -/(index_iota 0 _) big_mkord; apply: eq_bigr => i _ /=; case: (f _).
Qed.

(* ---------------------------------------------------------------------------- classical codes *)
(* a sample of weight w is an error of weight w, and it is counted as failure iff the decoder returns another error *)
Theorem C82_classical n w (H : mat) dec (s : seq nat * vec) r : drawn_classical n w s ->
  size (place n s.1 s.2) = n /\ hwt (place n s.1 s.2) = w /\
  (dec (mulmv H (place n s.1 s.2)) = Some r -> size r = n ->
   classical_fails n (direct_decode H dec) s = Some (r != place n s.1 s.2)).
Proof.
case=> u sl al sv nz; rewrite -sl in sv; have se := size_place u al sv.
split=> //; split; first by rewrite hwt_place.
move=> hd sr; rewrite /classical_fails /direct_decode hd /=; congr Some.
apply/idP/idP => [/hasP [x /(nthP 0) [j lj <-]]|ne].
  rewrite size_vsub ?se // in lj; rewrite nth_vsub ?se // => h; apply/eqP => e.
  by move: h; rewrite e subrr eqxx.
apply: contraNT ne => /hasPn h; apply/eqP; apply: (@eq_from_nth _ 0) => [|j]; rewrite sr ?se // => lj.
have := h (nth 0 (vsub (place n s.1 s.2) r) j); rewrite mem_nth ?size_vsub ?se // negbK nth_vsub ?se // subr_eq0.
by move=> /(_ isT) /eqP.
Qed.

(* in particular a lookup decoder made by default never fails on samples whose weight is less than half of the distance *)
Theorem C82_lookup (el : vec) n (H : mat) d w (s : seq nat * vec) : field_list el -> wf n H -> is_dist n H d ->
  drawn_classical n w s -> (2 * w < d)%N ->
  classical_fails n (direct_decode H (fun y => Some (lookup_classical el n H ((d - 1) %/ 2) y))) s = Some false.
Proof.
move=> hel wH hd dr lw.
have [se [hw h]] := C82_classical H (fun y => Some (lookup_classical el n H ((d - 1) %/ 2) y)) (place n s.1 s.2) dr.
rewrite h ?eqxx //; congr Some; apply: (C62_corrects hel wH hd) => //; rewrite hw.
by move: lw; clear; lia.
Qed.

Theorem C82_classical_rate fuel num_samples p_max dec draw (c : ccode F) p a : (0 < cc_n c)%N -> 0 < p_max <= 1 ->
  sample_allocation fuel num_samples (cc_n c) p_max = Some a -> 0 <= p <= p_max ->
  (forall y, exists2 r, dec (cc_mat c) y = Some r & size r = cc_n c) ->
  (forall w i, (0 < w < size a)%N -> (i < nth 0%N a w)%N -> drawn_classical (cc_n c) w (draw w i)) ->
  exists rate, classical_rate fuel num_samples p_max dec draw c p = Some rate /\
    rate.1 = 1 - \sum_(k < size a) 'C(cc_n c, k)%:R * p ^+ k * (1 - p) ^+ (cc_n c - k) *
        (if k == 0%N :> nat then 1 else 1 - (\sum_(i < nth 0%N a k)
           (dec (cc_mat c) (mulmv (cc_mat c) (place (cc_n c) (draw k i).1 (draw k i).2)) != Some (place (cc_n c) (draw k i).1 (draw k i).2)))%:R
           / (nth 0%N a k)%:R).
Proof.
move=> hn hm ha hp hd hdr.
pose f s := dec (cc_mat c) (mulmv (cc_mat c) (place (cc_n c) s.1 s.2)) != Some (place (cc_n c) s.1 s.2).
have hf w i : (0 < w < size a)%N -> (i < nth 0%N a w)%N -> 
    classical_fails (cc_n c) (direct_decode (cc_mat c) (dec (cc_mat c))) (draw w i) = Some (f (draw w i)).
  move=> hw hi; have [r er sr] := hd (mulmv (cc_mat c) (place (cc_n c) (draw w i).1 (draw w i).2)).
  have [_ [_ h]] := C82_classical (cc_mat c) (dec (cc_mat c)) r (hdr w i hw hi).
  by rewrite h // /f er; congr Some.
have [r [er e1]] := error_rate_ok hm hn ha hp hf; exists r; split=> //.
rewrite e1; congr (1 - _); apply: eq_bigr => k _; congr (_ * _); case: ifP => // _; congr (1 - _%:R / _).
by rewrite /mkseq count_map -sum1_count big_mkcond /= -[X in iota 0 X]subn0 -/(index_iota 0 _) big_mkord; apply: eq_bigr => i _; rewrite /= /f; case: (_ != _).
Qed.
End Props.

(* ---------------------------------------------------------------------------- finding *)
(* with a lookup decoder, which returns no correction for syndromes that are not in its table, the count depends on the choice
   of logical operators: Shor's code, X errors on the first qubits of two blocks, max_weight = 1 *)
Definition shor : csscode [fieldType of 'F_2] :=
  mkcss 9 (b2 [:: [:: 1;1;1;1;1;1;0;0;0]; [:: 0;0;0;1;1;1;1;1;1]]%N)
          (b2 [:: [:: 1;1;0;0;0;0;0;0;0]; [:: 0;1;1;0;0;0;0;0;0]; [:: 0;0;0;1;1;0;0;0;0]; [:: 0;0;0;0;1;1;0;0;0];
                  [:: 0;0;0;0;0;0;1;1;0]; [:: 0;0;0;0;0;0;0;1;1]]%N) None.
Definition shor_x : seq (seq 'F_2) := b2 [:: [:: 1;1;1;0;0;0;0;0;0]]%N.
Definition shor_with (z : seq nat) : csscode [fieldType of 'F_2] := odflt shor (c_set_logical_ops_xz shor shor_x (b2 [:: z]) true).
Definition lookup_dec n w (H : seq (seq 'F_2)) (y : seq 'F_2) : option (seq 'F_2) := Some (lookup_classical [:: 0; 1] n H w y).

Theorem C82_invalid_decoder_refuted : exists (F : fieldType) (c c' : csscode F) dec s w lx lz lx' lz',
  [/\ c_ok c, c_ok c', [/\ c_n c = c_n c', c_x c = c_x c' & c_z c = c_z c'], drawn (c_n c) w s
    & [/\ c_get_logical_ops_pauli c true = Some lx, c_get_logical_ops_pauli c false = Some lz,
          c_get_logical_ops_pauli c' true = Some lx', c_get_logical_ops_pauli c' false = Some lz'
        & css_sample_fails dec c lx lz s = Some true /\ css_sample_fails dec c' lx' lz' s = Some false]].
Proof.
have okr : c_ok shor by apply: c_ok_mk.
have okw z : size z = 9%N -> isSome (c_set_logical_ops_xz shor shor_x (b2 [:: z]) true) -> c_ok (shor_with z).
  move=> sz h; rewrite /shor_with; case e: c_set_logical_ops_xz h => [c|] // _.
  by have [] := set_xz_ok okr _ _ e; rewrite //= /b2 /= size_map sz.
pose c := shor_with [:: 1;0;0;1;0;0;1;0;0]%N; pose c' := shor_with [:: 0;1;0;1;0;0;1;0;0]%N.
exists [fieldType of 'F_2], c', c, (lookup_dec 9 1), (Sample [:: 0; 3]%N [:: 2; 2]%N [::] [:: 1; 1]), 2%N.
exists shor_x, (b2 [:: [:: 0;1;0;1;0;0;1;0;0]]%N), shor_x, (b2 [:: [:: 1;0;0;1;0;0;1;0;0]]%N); split.
- by apply: okw; last by vm_compute.
- by apply: okw; last by vm_compute.
- by split; apply/eqP; vm_compute.
- have -> : c_n c' = 9%N by apply/eqP; vm_compute.
  by split.
by split; [apply/eqP; vm_compute .. | split; apply/eqP; vm_compute].
Qed.

(* ---------------------------------------------------------------------------- the hypotheses can be met *)
Example ex_C82_drawn : drawn 5 3 (Sample [:: 4; 0; 2]%N [:: 3; 1; 2]%N [:: 1; 1] [:: 1; 1] : sample [fieldType of 'F_2]).
Proof. by split. Qed.
Example ex_C82_classical : drawn_classical 5 2 ([:: 4; 1]%N, [:: 2%:R; 1] : seq 'F_3).
Proof. by split. Qed.
Example ex_C82_bias : label_probs (1, 0, 3%:R) = Some [:: 3%:R / 4%:R; 1 / 4%:R; 0].
Proof. by apply/eqP; vm_compute. Qed.
Example ex_C82_allocation : exists fuel a, sample_allocation fuel 1000 7 (1 / 4%:R) = Some a.
Proof. by have [//|//|//|f /(_ f (leqnn f)) [a ea]] := @C67_allocation_ends 1000 7 (1 / 4%:R); exists f, a. Qed.
(* decoders with the right syndromes: the generalised union-find decoder, for every matrix *)
Example ex_C82_valid (F : fieldType) (el : seq F) n (H : seq (seq F)) mw : wf n H -> valid_decoder n H (guf_decode el 1 n H mw).
Proof.
move=> wH e se; have wH1 : wf (1 * n) H by rewrite mul1n. have se1 : size e = (1 * n)%N by rewrite mul1n.
have [r [h1 h2 h3]] := C64_guf el mw wH1 se1 (erefl (mulmv H e)).
by exists r; split=> //; rewrite h2 mul1n.
Qed.

(* decoders of the least weight: a lookup table for the Steane code, whose distance is 3 *)
Fixpoint words (n : nat) : seq (seq 'F_2) := if n is n'.+1 then [seq 0 :: w | w <- words n'] ++ [seq 1 :: w | w <- words n'] else [:: [::]].
Lemma in_words n (v : seq 'F_2) : size v = n -> v \in words n.
Proof.
elim: n v => [|n IH] [|x v] //= [/IH h]; rewrite mem_cat; apply/orP.
have : x \in [:: 0; 1 : 'F_2] by have [_ /(_ x)] := fl2.
by rewrite !inE => /orP [] /eqP ->; [left | right]; apply: map_f.
Qed.
Example ex_C82_correctable : exists c st, [/\ steane_code = Some (c, st), c_ok c,
  forall x, minimal_decoder (c_n c) (c_get_stabilizer_ops_pauli c x) (lookup_dec 7 1 (c_get_stabilizer_ops_pauli c x))
  & forall v, nontrivial (c_n c) (css_mat (c_n c) (c_x c) (c_z c)) v -> (2 * 1 < qwt (c_n c) v)%N].
Proof.
have [c [st [e [[en ok] [s0 _] _ [_ [_ hq]] _] [hx hz] _ _]]] := C53_steane; exists c, st; split=> //; last first.
  by move=> v; rewrite en; apply: hq.
move=> x; rewrite en.
have -> : c_get_stabilizer_ops_pauli c x = c_get_stabilizer_ops_pauli (mkcss 7 (c_x c) (c_x c) (Some false)) x.
  by rewrite /c_get_stabilizer_ops_pauli /c_get_stabilizer_ops s0 hz en.
rewrite hx; set M := b2 _.
move=> v /in_words hv; set H := c_get_stabilizer_ops_pauli _ _.
exists (odflt [::] (lookup_dec 7 1 H (mulmv H v))).
have : all (fun v => let r := odflt [::] (lookup_dec 7 1 H (mulmv H v)) in
   [&& size r == 7%N, mulmv H r == mulmv H v & (hwt r <= hwt v)%N]) (words 7) by rewrite /H; case: (x); vm_compute.
by move/allP/(_ v hv)/and3P => [/eqP h1 /eqP h2 h3]; split.
Qed.

Print Assumptions C82_sampled_error.
Print Assumptions C82_bias.
Print Assumptions C82_failure.
Print Assumptions C82_correctable.
Print Assumptions C82_rate.
Print Assumptions C82_classical.
Print Assumptions C82_lookup.
Print Assumptions C82_classical_rate.
Print Assumptions C82_invalid_decoder_refuted.
