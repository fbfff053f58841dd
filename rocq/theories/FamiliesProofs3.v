(* Extended Hamming codes and simplex codes: proofs. *)
From mathcomp Require Import all_ssreflect all_algebra zify.
From Verif Require Import LinAlg RowReduce Classical ClassicalProofs ClassicalProofs2 ClassicalDist Families FamiliesProofs FamiliesProofs2.
Set Implicit Arguments.
Unset Strict Implicit.
Unset Printing Implicit Defensive.
Import GRing.Theory.
Local Open Scope ring_scope.

Section Proofs.
Variable F : fieldType.
Notation vec := (seq F).
Notation mat := (seq (seq F)).
Hypothesis bin : forall x : F, x \in [:: 0; 1].

Let u01 : uniq [:: 0; 1 : F]. Proof. by rewrite /= inE andbT eq_sym oner_neq0. Qed.
Let bin' (x : F) : x = 0 \/ x = 1. Proof. exact: (binary u01 bin). Qed.
Let two : 1 + 1 = 0 :> F. Proof. exact: (two0 u01 bin). Qed.

(* ------------------------------------------------------------ a code with an extra parity bit *)
Lemma ext_word n (H : mat) (a : F) (w : vec) : wf n H -> (0 < size H)%N ->
  let M := nseq n.+1 1 :: [seq 0 :: r | r <- H] in
  is_word n.+1 (vadd (nth [::] M 0) (nth [::] M 1) :: behead M) (a :: w) <-> is_word n H w /\ a + \sum_(j < n) nth 0 w j = 0.
Proof.
move=> wH pH M; case: H wH pH @M => [|h H] // wH _ M.
have sh : size h = n by apply: (wfP _ _ wH); rewrite inE eqxx.
have row r : \sum_(j < n.+1) nth 0 (0 :: r) j * nth 0 (a :: w) j = \sum_(j < n) nth 0 r j * nth 0 w j.
  by rewrite big_ord_recl /= mul0r add0r.
have top : \sum_(j < n.+1) nth 0 (vadd (nth [::] M 0) (nth [::] M 1)) j * nth 0 (a :: w) j =
   a + \sum_(j < n) nth 0 w j + \sum_(j < n) nth 0 h j * nth 0 w j.
  rewrite -(row h) -[a + _](_ : \sum_(j < n.+1) nth 0 (a :: w) j = _); last by rewrite big_ord_recl.
  rewrite -big_split /=; apply: eq_bigr => j _; rewrite nth_vadd ?size_nseq /= ?size_nseq ?sh // -[1 :: _]/(nseq n.+1 1).
  by rewrite nth_nseq ltn_ord mulrDl mul1r.
split=> [[/= [sw] h']|[[sw hw] e]].
  have rows r : r \in h :: H -> \sum_(j < n) nth 0 r j * nth 0 w j = 0.
    by move=> hr; rewrite -row; apply: h'; rewrite inE; apply/orP; right; exact: (map_f (cons 0) hr).
  split; first by split.
  by have := h' _ (mem_head _ _); rewrite top rows ?mem_head // addr0.
split; first by rewrite /= sw.
move=> r; rewrite inE => /orP [/eqP ->|]; first by rewrite top e hw ?mem_head // addr0.
by case/mapP => x hx ->; rewrite row; apply: hw.
Qed.

Lemma sum_wt n (w : vec) : size w = n -> \sum_(j < n) nth 0 w j = (hwt w)%:R.
Proof.
move=> <-; elim: w => [|x w IH] /=; first by rewrite big_ord0.
by rewrite big_ord_recl /= IH /hwt /= natrD; case: (bin' x) => ->; rewrite ?eqxx ?oner_neq0.
Qed.
Lemma natr_odd k : k%:R = (odd k)%:R :> F.
Proof. by elim: k => // k IH; rewrite -addn1 natrD IH addn1 /=; case: (odd k); rewrite /= ?two ?add0r. Qed.

Lemma ext_dim n (H H' : mat) k : wf n H -> (forall a w, is_word n.+1 H' (a :: w) <-> is_word n H w /\ a + \sum_(j < n) nth 0 w j = 0) ->
  has_dim n H k -> has_dim n.+1 H' k.
Proof.
move=> wH h [G [[gG sG iG] <-]]; pose par (g : vec) : vec := - (\sum_(j < n) nth 0 g j) :: g.
exists [seq par g | g <- G]; rewrite size_map; split=> //; split.
- by move=> g /mapP [x hx ->]; apply/h; split; [apply: gG | rewrite addNr].
- case=> [|a w hw]; first by case.
  have [ww e] := proj1 (h a w) hw; have [c [sc sw hc]] := sG _ ww; exists c; split; rewrite ?size_map //=; first by rewrite sw.
  case=> [_|j lj] /=.
    have -> : a = - \sum_(j < n) nth 0 w j by apply/eqP; rewrite -addr_eq0 e.
    rewrite (eq_bigr (fun j : 'I_n => \sum_(i < size G) nth 0 c i * nth 0 (nth [::] G i) j)); last by move=> j _; apply: hc.
    rewrite exchange_big /= -sumrN; apply: eq_bigr => i _; rewrite (nth_map [::]) // -mulr_sumr mulrN //.
  by rewrite hc //; apply: eq_bigr => i _; rewrite (nth_map [::]).
move=> c c' [|a w]; rewrite /is_comb size_map; first by case.
move=> [sc [sw] hc] [sc' _ hc']; apply: (iG _ _ w); split=> //.
  by move=> j lj; have := hc j.+1 lj; rewrite /= => ->; apply: eq_bigr => i _; rewrite (nth_map [::]).
by move=> j lj; have := hc' j.+1 lj; rewrite /= => ->; apply: eq_bigr => i _; rewrite (nth_map [::]).
Qed.

Lemma ext_hamming_ok r : (1 < r)%N -> exists c, [/\ ext_hamming_code F r = Some (c, Dist 4), cc_n c = (2 ^ r)%N,
  code_ok c, has_dim (cc_n c) (cc_mat c) (2 ^ r - r - 1) /\ dimension c = (2 ^ r - r - 1)%N & is_dist (cc_n c) (cc_mat c) 4].
Proof.
move=> r1; have [c [ec nc ok [hd _] hdist]] := hamming_ok u01 bin (ltnW r1).
have {}hdist := hdist r1.
have sc : size (hamming_cols [:: 0; 1 : F] r) = (2 ^ r - 1)%N.
  rewrite /hamming_cols /= size_behead; suff -> : size (product [:: 0; 1 : F] r) = (2 ^ r)%N by rewrite subn1.
  by elim: (r) => // k IH; rewrite /= cats0 size_cat !size_map IH expnS mul2n addnn.
have p2 : (r < 2 ^ r)%N by apply: ltn_expl.
have ecm : cc_mat c = trl r (hamming_cols [:: 0; 1] r).
  by move: ec; rewrite /hamming_code; case: (hamming_cols _ _) => // ? ? [<-].
have sm : size (cc_mat c) = r by rewrite ecm size_trl.
have [wH _ _] := ok; rewrite nc sc in hd hdist wH.
set H := cc_mat c in hd hdist wH sm.
set M := nseq (2 ^ r - 1).+1 1 :: [seq 0 :: r | r <- H].
have en : (2 ^ r - 1).+1 = (2 ^ r)%N by lia.
have sM : size (vadd (nth [::] M 0) (nth [::] M 1) :: behead M) = r.+1 by rewrite /= size_map sm.
set M' := _ :: _ in sM.
have words a w : is_word (2 ^ r - 1).+1 M' (a :: w) <-> is_word (2 ^ r - 1) H w /\ a + \sum_(j < 2 ^ r - 1) nth 0 w j = 0.
  by apply: ext_word => //; rewrite sm; lia.
have wM : wf (2 ^ r) M'.
  apply/wfP => x; rewrite inE => /orP [/eqP -> | /mapP [y hy ->]].
    have p : (0 < size H)%N by rewrite sm; lia.
    have -> : nth [::] M 1 = 0 :: nth [::] H 0 by rewrite /M /= (nth_map [::]).
    by rewrite size_vadd /= ?size_nseq ?(wf_nth wH p).
  by rewrite /= (wfP _ _ wH _ hy).
have hd' : has_dim (2 ^ r) M' (2 ^ r - r - 1).
  rewrite -[X in has_dim X]en -subnAC; apply: (ext_dim wH words); exact: hd.
have even a w : is_word (2 ^ r - 1).+1 M' (a :: w) -> ~~ odd (hwt (a :: w)).
  case/words => [[sw _]] e; have := @sum_wt (2 ^ r - 1).+1 (a :: w) (congr1 S sw); rewrite big_ord_recl e natr_odd.
  by case: (odd _) => // /eqP; rewrite eq_sym oner_eq0.
exists (CCode (2 ^ r) M' None (Some (2 ^ r - r - 1)%N)); split=> //.
- by rewrite /ext_hamming_code ec nc sc -/H -/M -/M' sM en; congr (Some (CCode _ _ _ (Some _), _)); lia.
- by split=> //= k [<-].
split=> /=.
  case: hdist => [[w [hw nz h3]] _]; pose a : F := - \sum_(j < 2 ^ r - 1) nth 0 w j; exists (a :: w).
  have hw' : is_word (2 ^ r - 1).+1 M' (a :: w) by apply/words; split=> //; rewrite addNr.
  split; [by rewrite en in hw' | by case: nz => j hj; exists j.+1 |].
  by have := even _ _ hw'; rewrite /hwt /= -/(hwt w) h3; case: (a != 0).
case=> [|a w] hw; first by case=> j; rewrite nth_nil.
rewrite -en in hw => nz; have ev := even _ _ hw; case/words: hw => hw e.
have h3 : (3 <= hwt w)%N.
  case: hdist => _; apply=> //; case: nz => [[|j] /= hj]; last by exists j.
  apply/nz_hwt; case: (posnP (hwt w)) => // /eqP h0; exfalso; apply: hj; move: e; have [sw _] := hw.
  by rewrite sum_wt // (eqP h0) addr0.
by move: ev; rewrite /hwt /= -/(hwt w); case: (a != 0); lia.
Qed.

(* ------------------------------------------------------------------------------ simplex codes *)
Fixpoint bseqs (k : nat) : seq (seq bool) :=
  if k is k'.+1 then [seq false :: s | s <- bseqs k'] ++ [seq true :: s | s <- bseqs k'] else [:: [::]].
Lemma mem_bseqs (s : seq bool) : s \in bseqs (size s).
Proof. by elim: s => // -[] s IH /=; rewrite mem_cat map_f ?orbT. Qed.

Section Lfsr.
Variables n c d : nat.
Hypotheses (c0 : (0 < c)%N) (cd : (c < d)%N) (dn : (d < n)%N).
Definition feed (s : seq bool) : seq bool := rcons s (nth false s (size s - d) (+) nth false s (size s - d + c)).
Definition lfsr (s : seq bool) : seq bool := iter (n - d) feed s.
Definition lfsr_ok (wt : nat) (s : seq bool) : bool :=
  let b := lfsr s in
  all (fun i => ~~ (nth false b i (+) nth false b ((i + c) %% n) (+) nth false b ((i + d) %% n)))%N (iota 0 n) &&
  (if has id s then count id b == wt else true).
Variable wt : nat.
Hypothesis chk : all (lfsr_ok wt) (bseqs d).

Let H : mat := mkmat n n (fun i j => if j \in [seq (i + e) %% n | e <- [:: 0; c; d]]%N then 1 else 0 : F).

Lemma modn_off i e f : (e < n)%N -> (f < n)%N -> ((i + e) %% n == (i + f) %% n)%N = (e == f).
Proof. by move=> le lf; rewrite eqn_modDl !modn_small. Qed.

Lemma simplex_word w : is_word n H w <-> size w = n /\
  forall i, (i < n)%N -> nth 0 w i + nth 0 w ((i + c) %% n)%N + nth 0 w ((i + d) %% n)%N = 0.
Proof.
suff e i : (i < n)%N -> \sum_(j < n) (if (j : nat) \in [seq (i + e) %% n | e <- [:: 0; c; d]]%N then 1 else 0 : F) * nth 0 w j =
   nth 0 w i + nth 0 w ((i + c) %% n)%N + nth 0 w ((i + d) %% n)%N.
  by rewrite word_mkmat; split=> -[sw h]; split=> // i li; have := h i li; rewrite e.
move=> li; have n0 : (0 < n)%N by lia.
pose k0 : 'I_n := Ordinal li; pose k1 : 'I_n := Ordinal (ltn_pmod (i + c) n0); pose k2 : 'I_n := Ordinal (ltn_pmod (i + d) n0).
have i0 : i = ((i + 0) %% n)%N by rewrite addn0 modn_small.
have n01 : k1 != k0 by rewrite -(inj_eq val_inj) /= [X in _ == X]i0 modn_off; lia.
have n02 : k2 != k0 by rewrite -(inj_eq val_inj) /= [X in _ == X]i0 modn_off; lia.
have n12 : k2 != k1 by rewrite -(inj_eq val_inj) /= modn_off; lia.
rewrite (bigD1 k0) // (bigD1 k1) // (bigD1 k2) /=; last by rewrite n02 n12.
rewrite !inE -i0 !eqxx /= !orbT !mul1r big1 ?addr0 ?addrA // => j /andP [/andP [h0 h1] h2].
by rewrite -!(inj_eq val_inj) /= in h0 h1 h2; rewrite !inE (negbTE h0) (negbTE h1) (negbTE h2) mul0r.
Qed.

Let bits (w : vec) : seq bool := [seq x != 0 | x <- w].
Let tof (b : seq bool) : vec := [seq ofb F x | x <- b].
Lemma nth_tof b i : nth 0 (tof b) i = ofb F (nth false b i).
Proof. by case: (ltnP i (size b)) => l; [rewrite (nth_map false) | rewrite !nth_default ?size_map]. Qed.
Lemma ofb_add x y : ofb F x + ofb F y = ofb F (x (+) y).
Proof. by case: x; case: y; rewrite /ofb /= ?addr0 ?add0r ?two. Qed.
Lemma size_lfsr s : size s = d -> size (lfsr s) = n.
Proof.
move=> ss; have e k : size (iter k feed s) = (d + k)%N by elim: k => [|k IH] /=; rewrite ?size_rcons ?IH ?ss ?addn0 ?addnS.
by rewrite e; lia.
Qed.
Lemma lfsr_word s : size s = d -> is_word n H (tof (lfsr s)).
Proof.
move=> ss; apply/simplex_word; split; first by rewrite size_map size_lfsr.
move=> i li; have /andP [/allP /(_ i)] := allP chk s ltac:(by rewrite -ss; apply: mem_bseqs).
rewrite mem_iota add0n => /(_ li) e _; rewrite !nth_tof !ofb_add.
by rewrite (negbTE e).
Qed.
Lemma lfsr_wt s : size s = d -> has id s -> hwt (tof (lfsr s)) = wt.
Proof.
move=> ss hs; have /andP [_] := allP chk s ltac:(by rewrite -ss; apply: mem_bseqs); rewrite hs => /eqP <-.
by rewrite /hwt count_map; apply: eq_count => -[]; rewrite /= ?oner_neq0 ?eqxx.
Qed.
Lemma word_lfsr w : is_word n H w -> w = tof (lfsr (take d (bits w))).
Proof.
case/simplex_word => sw h; rewrite -[LHS](ofbK u01 bin erefl) -/(bits w) /tof; congr map.
have sb : size (bits w) = n by rewrite size_map.
have e k : (d + k <= n)%N -> iter k feed (take d (bits w)) = take (d + k) (bits w).
  elim: k => [|k IH] l; first by rewrite addn0.
  rewrite iterS IH; last by lia.
  have st : size (take (d + k) (bits w)) = (d + k)%N by rewrite size_takel // sb; lia.
  rewrite addnS [RHS](take_nth false); last by rewrite sb; lia.
  rewrite /feed st; congr rcons.
  have -> : (d + k - d = k)%N by lia.
  rewrite !nth_take; [|lia|lia]; have := h k ltac:(lia).
  rewrite !modn_small; [|lia|lia]; rewrite addnC [(d + k)%N]addnC.
  rewrite !(nth_map 0) ?sw; [|lia|lia|lia].
  have -> : (c + k = k + c)%N by lia.
  have b01 (x : F) : x = ofb F (x != 0) by case: (bin' x) => ->; rewrite /ofb ?eqxx ?oner_neq0.
  rewrite [nth 0 w k]b01 [nth 0 w (k + c)]b01 [nth 0 w (k + d)]b01 !ofb_add.
  have no (x : bool) : (ofb F x != 0) = x by case: x; rewrite /= ?oner_neq0 ?eqxx.
  rewrite !no; case: (_ != 0); case: (_ != 0); case: (_ != 0) => //= /eqP; rewrite oner_eq0 //.
by rewrite /lfsr e subnKC ?take_oversize ?sb // ltnW.
Qed.
Lemma word_first w w' : is_word n H w -> is_word n H w' -> (forall i, (i < d)%N -> nth 0 w i = nth 0 w' i) -> w = w'.
Proof.
move=> hw hw' h; rewrite (word_lfsr hw) (word_lfsr hw'); congr (tof (lfsr _)).
have [sw _] := hw; have [sw' _] := hw'.
apply: (@eq_from_nth _ false) => [|i]; rewrite !size_takel ?size_map ?sw ?sw' //; try lia.
move=> li; rewrite !nth_take // !(nth_map 0) ?sw ?sw' ?h //; lia.
Qed.

Lemma lfsr_prefix s i : size s = d -> (i < d)%N -> nth false (lfsr s) i = nth false s i.
Proof.
move=> ss li; suff e k : nth false (iter k feed s) i = nth false s i /\ (d <= size (iter k feed s))%N by case: (e (n - d)%N).
elim: k => [|k [IH IH2]] /=; first by rewrite ss.
by rewrite nth_rcons size_rcons; split; [rewrite (leq_trans li IH2) | lia].
Qed.

Lemma simplex_dim : has_dim n H d.
Proof.
pose G : mat := [seq tof (lfsr (mkseq (fun j => j == i) d)) | i <- iota 0 d].
have sG : size G = d by rewrite size_map size_iota.
have nG i : (i < d)%N -> nth [::] G i = tof (lfsr (mkseq (fun j => j == i) d)).
  by move=> li; rewrite (nth_map 0%N) ?size_iota // nth_iota.
have fst_comb x v : is_comb n G x v -> forall i, (i < d)%N -> nth 0 v i = nth 0 x i.
  case=> sx sv e i li; rewrite e; last by lia.
  rewrite sG (bigD1 (Ordinal li)) //= nG // nth_tof lfsr_prefix ?size_mkseq // nth_mkseq // eqxx mulr1 big1 ?addr0 // => j nj.
  rewrite nG // nth_tof lfsr_prefix ?size_mkseq // nth_mkseq //; rewrite -(inj_eq val_inj) /= eq_sym in nj.
  by rewrite (negbTE nj) mulr0.
have wG g : g \in G -> is_word n H g by case/mapP => i _ ->; apply: lfsr_word; rewrite size_mkseq.
exists G; split=> //; split=> //.
  move=> w hw; have [sw _] := hw; exists (take d w); have st : size (take d w) = size G by rewrite size_takel ?sG ?sw // ltnW.
  have hc := vmulm_comb n st; suff ew : w = vmulm n (take d w) G by rewrite -ew in hc.
  apply: word_first => //; last by move=> i li; rewrite (fst_comb _ _ hc) // nth_take.
  case: hc => _ sv e; split=> // r hr.
  rewrite (eq_bigr (fun j : 'I_n => \sum_(i < size G) nth 0 (take d w) i * (nth 0 r j * nth 0 (nth [::] G i) j))); last first.
    by move=> j _; rewrite e // mulr_sumr; apply: eq_bigr => i _; rewrite mulrCA.
  rewrite exchange_big /= big1 // => i _; rewrite -mulr_sumr.
  by have [_ ->] := wG _ (mem_nth [::] (ltn_ord i)); rewrite ?mulr0.
move=> x x' w hx hx'; have [sx _ _] := hx; have [sx' _ _] := hx'.
apply: (@eq_from_nth _ 0) => [|i]; rewrite sx ?sx' // sG => li.
by rewrite -(fst_comb _ _ hx) // (fst_comb _ _ hx').
Qed.

Lemma simplex_wt w : is_word n H w -> (exists j, nth 0 w j <> 0) -> hwt w = wt.
Proof.
move=> hw [j /eqP nj]; rewrite (word_lfsr hw); have [sw _] := hw.
have st : size (take d (bits w)) = d by rewrite size_takel // size_map sw ltnW.
apply: lfsr_wt => //; apply: contraNT nj => nh.
suff e : w = vzero F n by rewrite e nth_vzero.
apply: word_first => //; first exact: zero_word.
move=> i li; rewrite nth_vzero; apply/eqP; apply: contraNT nh => ni; apply/(has_nthP false); exists i; rewrite ?st //.
by rewrite nth_take // (nth_map 0) ?sw //; lia.
Qed.

Lemma simplex_dist : is_dist n H wt.
Proof.
split; last by move=> w hw nz; rewrite (simplex_wt hw nz).
pose s := true :: nseq d.-1 false; have ss : size s = d by rewrite /= size_nseq; lia.
exists (tof (lfsr s)); split; [exact: lfsr_word | | by apply: lfsr_wt].
by exists 0%N; rewrite nth_tof lfsr_prefix //=; [apply/eqP; rewrite oner_neq0 | lia].
Qed.
End Lfsr.

Lemma simplex_ok dim : (1 < dim < 8)%N -> exists c, [/\ simplex_code F dim = Some (c, Dist (2 ^ dim.-1)), cc_n c = (2 ^ dim - 1)%N,
  code_ok c, has_dim (cc_n c) (cc_mat c) dim /\ dimension c = dim
  & is_dist (cc_n c) (cc_mat c) (2 ^ dim.-1) /\
    forall w, is_word (cc_n c) (cc_mat c) w -> (exists j, nth 0 w j <> 0) -> hwt w = (2 ^ dim.-1)%N].
Proof.
move=> hd.
have gen n c : all (lfsr_ok n c dim (2 ^ dim.-1)) (bseqs dim) -> (0 < c)%N -> (c < dim)%N -> (dim < n)%N ->
    simplex_exponents dim = Some [:: 0; c; dim]%N -> n = (2 ^ dim - 1)%N ->
    exists c, [/\ simplex_code F dim = Some (c, Dist (2 ^ dim.-1)), cc_n c = (2 ^ dim - 1)%N,
      code_ok c, has_dim (cc_n c) (cc_mat c) dim /\ dimension c = dim
      & is_dist (cc_n c) (cc_mat c) (2 ^ dim.-1) /\
        forall w, is_word (cc_n c) (cc_mat c) w -> (exists j, nth 0 w j <> 0) -> hwt w = (2 ^ dim.-1)%N].
  move=> chk h1 h2 h3 es en; have hdim := simplex_dim h1 h2 h3 chk.
  exists (CCode n (mkmat n n (fun i j => if j \in [seq (i + e) %% n | e <- [:: 0; c; dim]]%N then 1 else 0)) None (Some dim)).
  split=> //.
  - by rewrite /simplex_code es -en subn1.
  - by split=> //=; [exact: wf_mkmat | move=> k [<-]].
  split; first exact: (simplex_dist h1 h2 h3 chk).
  by move=> w; exact: (simplex_wt h1 h2 h3 chk).
case: dim hd gen => [|[|[|[|[|[|[|[|]]]]]]]] // _ gen.
- by apply: (gen 3%N 1%N); vm_compute.
- by apply: (gen 7%N 2%N); vm_compute.
- by apply: (gen 15%N 3%N); vm_compute.
- by apply: (gen 31%N 3%N); vm_compute.
- by apply: (gen 63%N 5%N); vm_compute.
- by apply: (gen 127%N 6%N); vm_compute.
Qed.
End Proofs.
