(* Distance of classical codes: model of qldpc/codes/common.py:372-500 and proofs about it. *)
From Coq Require Import NArith List.
From mathcomp Require Import all_ssreflect all_algebra zify.
From Verif Require Import LinAlg RowReduce Classical ClassicalProofs ClassicalProofs2.
From Verif Require BitWeight Pack GrayCode.
Set Implicit Arguments.
Unset Strict Implicit.
Unset Printing Implicit Defensive.
Import GRing.Theory.
Local Open Scope ring_scope.

(* ====================================================================== specification *)
Section Spec.
Variable F : fieldType.
(* number of positions where two vectors of length n differ *)
Definition ndiff (n : nat) (u v : seq F) : nat := count (fun j => nth 0 u j != nth 0 v j) (iota 0 n).
(* d is the minimum Hamming distance between v and a code word *)
Definition is_vdist (n : nat) (H : seq (seq F)) (v : seq F) (d : nat) : Prop :=
  (exists2 w, is_word n H w & ndiff n w v = d) /\
  (forall w, is_word n H w -> (d <= ndiff n w v)%N).
End Spec.

(* ============================================================================== model *)
(* a value of a distance: an integer or np.nan *)
Inductive dvalue := Dist of nat | NaN.

Section Model.
Variable F : fieldType.
Notation vec := (seq F).
Notation mat := (seq (seq F)).
Implicit Types c : ccode F.

(* a row of a binary code as an array of bits *)
Definition bits (r : vec) : list bool := [seq x != 0 | x <- r].

(* common.py:418-429: get_distance_if_known; `kd` is the field _distance *)
Definition get_distance_if_known c (kd : option dvalue) (vector : option vec) : option dvalue :=
  if vector is Some v then if dimension c == 0%N then Some (Dist (hwt v)) else None
  else if dimension c == 0%N then Some NaN else kd.

(* min over a generator expression; None models the ValueError of an empty sequence *)
Definition pymin (s : seq nat) : option nat := if s is x :: s' then Some (foldl minn x s') else None.

(* common.py:393-416: get_distance_exact; `el` is field.elements, `be` the implementation of the weight function that is
   installed.  None models an exception. *)
Definition get_distance_exact (be : Pack.backend) (el : vec) c (kd : option dvalue) (vector : option vec) : option dvalue :=
  if get_distance_if_known c kd vector is Some d then Some d
  else if vector is Some v then omap Dist (pymin [seq hwt (vsub w v) | w <- iter_words el c false])
  else if size el == 2%N then
    omap (fun x => Dist (N.to_nat x)) (GrayCode.get_distance_classical be 15 (cc_n c) [seq bits r | r <- generator c])
  else omap Dist (pymin [seq hwt w | w <- iter_words el c true]).

(* common.py:458-500: get_one_distance_bound.  Everything external is arbitrary: the i-th call of the decoder is `dec i`,
   the i-th random word is `rnd i`.  The while loop is run at most `fuel` times; None models an exception (a vector of the
   wrong length) or running out of fuel. *)
Fixpoint bound_loop (fuel : nat) (n : nat) (H : mat) (rnd : nat -> vec) (dec : nat -> mat -> vec -> vec) (i : nat) : option nat :=
  if fuel is f.+1 then
    let syn := rcons (nseq (size H) 0) 1 in
    let chk := rcons H (rnd i) in
    let cand := dec i chk syn in
    if ~~ ((size (rnd i) == n) && (size cand == n)) then None
    else if mulmv chk cand == syn then Some (hwt cand)
    else bound_loop f n H rnd dec i.+1
  else None.
Definition get_one_distance_bound c (vector : option vec) (fuel : nat) (rnd : nat -> vec) (dec : nat -> mat -> vec -> vec) : option nat :=
  if vector is Some v then Some (hwt (dec 0%N (cc_mat c) (mulmv (cc_mat c) v)))
  else bound_loop fuel (cc_n c) (cc_mat c) rnd dec 0.

(* common.py:431-456: get_distance_bound; trial t uses the streams rnd t and dec t *)
Fixpoint trials (k t : nat) (cutoff : option nat) c (vector : option vec) (fuel : nat)
    (rnd : nat -> nat -> vec) (dec : nat -> nat -> mat -> vec -> vec) (m : nat) : option nat :=
  if k is k'.+1 then
    if (if cutoff is Some x then (x != 0%N) && (m <= x)%N else false) then Some m
    else if get_one_distance_bound c vector fuel (rnd t) (dec t) is Some b
         then trials k' t.+1 cutoff c vector fuel rnd dec (minn m b) else None
  else Some m.
Definition get_distance_bound (num_trials : nat) (cutoff : option nat) c (kd : option dvalue) (vector : option vec) (fuel : nat)
    (rnd : nat -> nat -> vec) (dec : nat -> nat -> mat -> vec -> vec) : option dvalue :=
  if get_distance_if_known c kd vector is Some d then Some d
  else omap Dist (trials num_trials 0 cutoff c vector fuel rnd dec (cc_n c)).
End Model.

(* =============================================================================== proofs *)
Section Proofs.
Variable F : fieldType.
Notation vec := (seq F).
Notation mat := (seq (seq F)).
Implicit Types c : ccode F.

Lemma hwt_le (w : vec) : (hwt w <= size w)%N.
Proof. exact: count_size. Qed.

Lemma foldl_minn (x : nat) (s : seq nat) :
  foldl minn x s \in x :: s /\ (forall y, y \in x :: s -> foldl minn x s <= y)%N.
Proof.
elim: s x => [|y s IH] x /=; first by rewrite mem_seq1; split=> // z; rewrite mem_seq1 => /eqP->.
have [h1 h2] := IH (minn x y); split.
  move: h1; rewrite !inE => /orP[/eqP->|->]; last by rewrite !orbT.
  by rewrite /minn; case: ifP; rewrite eqxx ?orbT.
move=> z; rewrite !inE; have := h2 (minn x y); rewrite mem_head => /(_ isT) hm.
case/or3P=> [/eqP->|/eqP->|hz]; [lia | lia |].
by apply: h2; rewrite inE hz orbT.
Qed.

Lemma pyminP (s : seq nat) : s <> [::] -> exists d, [/\ pymin s = Some d, d \in s & forall y, y \in s -> (d <= y)%N].
Proof. by case: s => // x s _; exists (foldl minn x s); have [h1 h2] := foldl_minn x s; split. Qed.

Lemma vdist_hwt (w v : vec) n : size w = n -> size v = n ->
  ndiff n w v = hwt (vsub w v).
Proof.
move=> sw sv; rewrite /hwt /ndiff.
have -> : vsub w v = [seq nth 0 w j - nth 0 v j | j <- iota 0 n].
  apply: (@eq_from_nth _ 0); first by rewrite size_vsub ?size_map ?size_iota ?sw ?sv ?minnn //.
  move=> i; rewrite size_vsub ?sw ?sv // ?minnn => li.
  by rewrite (nth_map 0%N) ?size_iota // nth_iota // nth_vsub // ?sw ?sv.
by rewrite count_map; apply: eq_count => j /=; rewrite subr_eq0.
Qed.

Lemma basis_nz n (H G : mat) : is_basis n H G -> (0 < size G)%N -> exists w, is_word n H w /\ exists j, nth 0 w j <> 0.
Proof.
case=> hG _ hu sG; set g := nth [::] G 0; have gG : g \in G by apply: mem_nth.
exists g; split; first exact: hG.
have [sg _] := hG g gG; case/boolP: (0 < hwt g)%N => [|z]; first by move=> h; apply/nz_hwt.
have g0 : g = nseq n 0.
  apply: (@eq_from_nth _ 0); rewrite ?size_nseq // => i li; rewrite nth_nseq -sg li.
  apply/eqP; apply: contraT => nz; case/negP: z; apply/nz_hwt; exists i; exact/eqP.
have c1 : is_comb n G (1 :: nseq (size G).-1 0) g.
  split=> //=; first by rewrite size_nseq prednK.
  move=> j lj; rewrite (bigD1 (Ordinal sG)) //= mul1r big1 ?addr0 // => i; rewrite -val_eqE /=.
  by case: (nat_of_ord i) => // k _; rewrite /= nth_nseq; case: ifP; rewrite mul0r.
have c0 : is_comb n G (nseq (size G) 0) g.
  split=> //=; first by rewrite size_nseq.
  by move=> j lj; rewrite big1 ?g0 ?nth_nseq ?lj // => i _; rewrite nth_nseq ltn_ord mul0r.
have := hu _ _ _ c1 c0; move/(congr1 (fun s : vec => nth 0 s 0)); rewrite /= nth_nseq sG => /eqP.
by rewrite oner_eq0.
Qed.

Lemma dist_min n (H : mat) (ws : seq vec) d : (forall w, w \in ws <-> is_word n H w /\ exists j, nth 0 w j <> 0) ->
  pymin [seq hwt w | w <- ws] = Some d -> is_dist n H d.
Proof.
move=> hws; case E: [seq hwt w | w <- ws] => [|x s] //= [<-].
have [h1 h2] := foldl_minn x s; rewrite -E in h1 h2; split.
  by case/mapP: h1 => w /hws[hw nz] e; exists w; split.
by move=> w hw nz; apply: h2; apply/mapP; exists w => //; apply/hws.
Qed.

(* ---------------------------------------------------------------- fields with two elements *)
Section Binary.
Variable el : seq F.
Hypothesis uel : uniq el.
Hypothesis ael : forall x : F, x \in el.
Hypothesis sel : size el = 2%N.

Lemma binary (x : F) : x = 0 \/ x = 1.
Proof.
move: uel (ael 0) (ael 1) (ael x); case: el sel => [|a [|b []]] //= _.
rewrite !inE andbT => nab /orP[] /eqP e0 /orP[] /eqP e1; move: nab; rewrite -?e0 -?e1 ?eqxx //;
  by move: (oner_neq0 F); rewrite e0 e1 ?eqxx // => _ _ /orP[] /eqP->; auto.
Qed.
Lemma two0 : 1 + 1 = 0 :> F.
Proof.
by case: (binary (1 + 1)) => // /eqP; rewrite -(inj_eq (addIr (-1))) addrK subrr oner_eq0.
Qed.
Lemma neq0_add (x y : F) : (x + y != 0) = xorb (x != 0) (y != 0).
Proof. by case: (binary x) => ->; case: (binary y) => ->; rewrite ?two0 ?addr0 ?add0r ?eqxx ?oner_eq0. Qed.

Lemma bits_add (u v : vec) : size u = size v -> bits (vadd u v) = Pack.xorl (bits u) (bits v).
Proof. by elim: u v => [|x u IH] [|y v] //= [/IH e]; rewrite /bits /vadd /= -/(vadd u v) neq0_add; congr cons. Qed.

Definition ofb (b : bool) : F := if b then 1 else 0.

Lemma bits_combo n (G : mat) (s : seq bool) : wf n G -> size s = size G ->
  GrayCode.combo n s [seq bits r | r <- G] = bits (vmulm n [seq ofb b | b <- s] G).
Proof.
move=> wG; elim: G wG s => [|r G IH] wG s ss.
  case: s ss => //= _; rewrite /vmulm.
  have -> : [seq dot [::] col | col <- trl n ([::] : mat)] = nseq n 0.
    apply: (@eq_from_nth _ 0); rewrite size_map size_trl ?size_nseq // => i li.
    by rewrite (nth_map [::]) ?size_trl // nth_nseq li /dot; case: (nth _ _ _).
  by rewrite /bits map_nseq eqxx /=; elim: n {wG} => //= n ->.
case: s ss => // b s /= [ss]; move: wG => /= /andP[/eqP sr wG].
have e : vmulm n (ofb b :: [seq ofb x | x <- s]) (r :: G) = if b then vadd r (vmulm n [seq ofb x | x <- s] G) else vmulm n [seq ofb x | x <- s] G.
  have [_ s1 e1] := @vmulm_comb F n (ofb b :: [seq ofb x | x <- s]) (r :: G) ltac:(by rewrite /= size_map ss).
  have [_ s2 e2] := @vmulm_comb F n [seq ofb x | x <- s] G ltac:(by rewrite size_map ss).
  apply: (@eq_from_nth _ 0) => [|j].
    by rewrite s1; case: b {e1 s1}; rewrite ?s2 // size_vadd ?sr ?s2.
  rewrite s1 => lj; rewrite e1 // big_ord_recl /= -e2 //.
  by case: b {e1 s1}; rewrite /ofb ?mul0r ?add0r // mul1r nth_vadd // sr s2.
rewrite e IH //; case: b {e} => //.
by rewrite bits_add // sr size_vmulm.
Qed.

Lemma ofbK (v : vec) : [seq ofb b | b <- [seq x != 0 | x <- v]] = v.
Proof.
elim: v => //= x v ->; congr cons; case: (binary x) => ->; by rewrite /ofb ?eqxx ?oner_eq0.
Qed.

Lemma wt_bits (w : vec) : Pack.wt (bits w) = N.of_nat (hwt w).
Proof.
rewrite /Pack.wt /hwt; congr N.of_nat; elim: w => [|x w IH] //=.
by case: (x != 0); case: Bool.bool_dec => //= h; rewrite IH.
Qed.

Lemma length_size T (l : seq T) : length l = size l. Proof. by []. Qed.

Lemma dist_binary be bs n (H G : mat) : is_basis n H G -> (0 < size G)%N -> (N.of_nat n < Pack.first_modulus be)%num ->
  exists2 d, GrayCode.get_distance_classical be bs n [seq bits r | r <- G] = Some d & is_dist n H (N.to_nat d).
Proof.
move=> bG sG hM; have wG := basis_wf bG; have [hw hsp hu] := bG.
have n0 : (0 < n)%N.
  have [w [[sw _] [j nz]]] := basis_nz bG sG; rewrite -sw lt0n; apply/eqP => s0; apply: nz.
  by rewrite nth_default // s0.
have lG : List.Forall (fun r => length r = n) [seq bits r | r <- G].
  apply/List.Forall_forall => r hr; have {hr} : r \in [seq bits r | r <- G].
    by elim: {wG bG sG hw hsp hu} G hr => //= a A IH; rewrite inE => -[->|/IH->]; rewrite ?eqxx ?orbT.
  by case/mapP => g gG ->; rewrite length_size size_map; case: (hw g gG).
have [d [e [_ [h1 h2]]]] := @GrayCode.distance_ok be true bs n [seq bits r | r <- G] [::] ltac:(by apply/ltP) ltac:(by [])
   hM lG ltac:(by constructor).
exists d => //.
have val s t : size s = size G -> length t = 0%N ->
    GrayCode.weight true (Pack.xorl (GrayCode.combo n s [seq bits r | r <- G]) (GrayCode.combo n t [::])) =
    N.of_nat (hwt (vmulm n [seq ofb b | b <- s] G)).
  move=> ss; case: t => // _ /=; rewrite bits_combo //.
  set w := vmulm _ _ _; have sw : size w = n by rewrite size_vmulm.
  have -> : List.repeat false n = List.repeat false (length (bits w)) by rewrite length_size size_map sw.
  by rewrite GrayCode.xorl_zero wt_bits.
have inT (s : seq bool) : List.In true s <-> true \in s.
  by elim: s => //= b s IH; rewrite inE; split=> [[->|/IH->]|/orP[/eqP|/IH]]; rewrite ?orbT //; auto.
have nzT (v : vec) : size v = size G -> (exists j, nth 0 (vmulm n v G) j <> 0) -> true \in [seq x != 0 | x <- v].
  move=> sv nz; apply: contraT => nT.
  have v0 : v = nseq (size G) 0.
    apply: (@eq_from_nth _ 0); rewrite ?size_nseq // => i li; rewrite nth_nseq -sv li.
    apply/eqP; apply: contraT => xi; case/negP: nT; apply/mapP; exists (nth 0 v i); rewrite ?xi //; exact: mem_nth.
  have [_ sm em] := @vmulm_comb F n v G sv; case: nz => j; case: (ltnP j n) => [lj|gj].
    by rewrite em // big1 // => i _; rewrite v0 nth_nseq ltn_ord mul0r.
  by rewrite nth_default // sm.
split.
  have [|s [t [ls [lt [Ts ->]]]]] := h2; first by case: (G) sG.
  have {}ls : size s = size G by rewrite -length_size ls length_size size_map.
  rewrite val // Nnat.Nat2N.id; exists (vmulm n [seq ofb b | b <- s] G).
  split=> //; first by apply: (iffRL (word_span bG (size_vmulm _ _ _))); apply/combP; rewrite ?size_vmulm //;
    exists [seq ofb b | b <- s]; apply: vmulm_comb; rewrite size_map.
  move/inT: Ts => Ts; apply/nz_hwt; rewrite lt0n; apply/negP => /eqP h0.
  have z : vmulm n [seq ofb b | b <- s] G = vmulm n (nseq (size G) 0) G.
    apply: (@eq_from_nth _ 0); rewrite !size_vmulm // => i li.
    have [_ _ em] := @vmulm_comb F n (nseq (size G) 0) G ltac:(by rewrite size_nseq).
    rewrite em // [RHS]big1 => [|k _]; last by rewrite nth_nseq ltn_ord mul0r.
    apply/eqP; apply: contraT => nz.
    have : (0 < hwt (vmulm n [seq ofb b | b <- s] G))%N by apply/nz_hwt; exists i; exact/eqP.
    by rewrite h0.
  have := hu _ _ _ (@vmulm_comb F n [seq ofb b | b <- s] G ltac:(by rewrite size_map)).
  rewrite z => /(_ _ (@vmulm_comb F n (nseq (size G) 0) G ltac:(by rewrite size_nseq))) es.
  case/(nthP false): Ts => i li ei; move/(congr1 (fun v : vec => nth 0 v i)): es.
  by rewrite (nth_map false) // ei nth_nseq -ls li => /eqP; rewrite oner_eq0.
move=> w hW nz; have [cc hc] := hsp w hW; have sc : size cc = size G by case: hc.
have ew := is_comb_vmulm hc.
have := h1 [seq x != 0 | x <- cc] [::] ltac:(by rewrite !length_size !size_map) ltac:(by []) ltac:(by apply/inT/nzT; rewrite -?ew).
rewrite val ?size_map // ofbK -ew => h; lia.
Qed.
End Binary.

(* ------------------------------------------------------------------------------- C10 *)
Definition known_ok c (kd : option dvalue) : Prop :=
  match kd with None => True | Some (Dist d) => is_dist (cc_n c) (cc_mat c) d | Some NaN => dimension c = 0%N end.

Lemma exact_ok be (el : seq F) c kd : code_ok c -> known_ok c kd -> uniq (0 :: el) -> (forall x, x \in 0 :: el) ->
  (size el = 1%N -> (N.of_nat (cc_n c) < Pack.first_modulus be)%num) -> dimension c <> 0%N ->
  exists2 d, get_distance_exact be (0 :: el) c kd None = Some (Dist d) & is_dist (cc_n c) (cc_mat c) d.
Proof.
move=> ok kok uel ael hM dim; rewrite /get_distance_exact /=; have bG := gen_basis ok.
have dim0 : (dimension c == 0%N) = false by apply/eqP.
have sG : (0 < size (generator c))%N by rewrite -dim_gen // lt0n dim0.
rewrite dim0; case: kd kok => [[d|]|].
- by move=> kd; exists d.
- by move=> h; case: dim.
move=> _; case: ifP => [/eqP [s1]|_].
  have [d e hd] := dist_binary uel ael (congr1 S s1) 15 bG sG (hM s1).
  by exists (N.to_nat d); rewrite ?e.
have [_ _ _ h] := iter_words_ok ok uel ael; have [w [hw nz]] := basis_nz bG sG.
have ne : [seq hwt w | w <- iter_words (0 :: el) c true] <> [::].
  by have : w \in iter_words (0 :: el) c true by [apply/h]; case: (iter_words _ _ _).
have [d [e _ _]] := pyminP ne; exists d; rewrite ?e //; exact: dist_min e.
Qed.

Lemma exact_trivial be (el : seq F) c kd : dimension c = 0%N -> get_distance_exact be el c kd None = Some NaN.
Proof. by move=> d0; rewrite /get_distance_exact /= d0. Qed.

Lemma dim0_word c w : code_ok c -> dimension c = 0%N -> is_word (cc_n c) (cc_mat c) w -> w = nseq (cc_n c) 0.
Proof.
move=> ok d0 hw; have bG := gen_basis ok; have [_ hsp _] := bG; have [cc hc] := hsp w hw.
have s0 : size (generator c) = 0%N by rewrite -dim_gen.
case: hc => _ sw e; apply: (@eq_from_nth _ 0); rewrite ?size_nseq // sw => j lj.
rewrite e // nth_nseq lj; move: (generator c) s0 => [] //= _; exact: big_ord0.
Qed.

Lemma exact_vector be (el : seq F) c kd v : code_ok c -> uniq (0 :: el) -> (forall x, x \in 0 :: el) -> size v = cc_n c ->
  exists2 d, get_distance_exact be (0 :: el) c kd (Some v) = Some (Dist d) & is_vdist (cc_n c) (cc_mat c) v d.
Proof.
move=> ok uel ael sv; rewrite /get_distance_exact /=; case: ifP => [/eqP d0|_].
  have hv : ndiff (cc_n c) (nseq (cc_n c) 0) v = hwt v.
    rewrite /hwt /ndiff -[in RHS](mkseq_nth 0 v) /mkseq count_map sv; apply: eq_in_count => j; rewrite mem_iota /= add0n => lj.
    by rewrite nth_nseq lj eq_sym.
  exists (hwt v) => //; split; first by exists (nseq (cc_n c) 0); [exact: zero_word | exact: hv].
  by move=> w hw; rewrite (dim0_word ok d0 hw) hv.
have [_ h _ _] := iter_words_ok ok uel ael.
set ws := iter_words _ _ _ in h *.
have z : vzero F (cc_n c) \in ws by apply/h; exact: zero_word.
have ne : [seq hwt (vsub w v) | w <- ws] <> [::] by case: (ws) z.
have [d [e /mapP[w hw ed] h2]] := pyminP ne; exists d; rewrite ?e //.
have sw u : u \in ws -> size u = cc_n c by move/h => [].
split; first by exists w; [apply/h | rewrite (vdist_hwt (sw _ hw) sv) -ed].
move=> u hu; rewrite vdist_hwt //; last by case: hu.
by apply: h2; apply/mapP; exists u => //; apply/h.
Qed.

(* ------------------------------------------------------------------------------- C15 *)
Lemma mulmv_word n (H : mat) (w : vec) : size w = n -> wf n H -> mulmv H w = nseq (size H) 0 -> is_word n H w.
Proof.
move=> sw wH e; have := @containsE F (mkcode n H) w wH sw; rewrite /contains /= e => -[h _]; apply: h.
by rewrite /vany; apply/hasPn => x; case/nseqP => ->; rewrite eqxx.
Qed.

Lemma bound_loop_ok fuel n (H : mat) rnd dec i b : wf n H -> bound_loop fuel n H rnd dec i = Some b ->
  exists w, [/\ is_word n H w, exists j, nth 0 w j <> 0 & hwt w = b].
Proof.
move=> wH; elim: fuel i => //= f IH i; case: ifP => // /negbFE/andP[/eqP sr /eqP sc]; case: ifP => [/eqP e|_]; last exact: IH.
case=> <-; set w := dec i _ _ in sc e *; exists w.
move: e; rewrite /mulmv map_rcons => /rcons_inj[e1 e2]; split=> //; first exact: mulmv_word.
apply/nz_hwt; rewrite lt0n; apply/negP => /eqP h0; move/eqP: e2; rewrite eq_sym.
suff -> : dot (rnd i) w = 0 by rewrite oner_eq0.
have w0 : w = nseq n 0.
  apply: (@eq_from_nth _ 0); rewrite ?size_nseq // => k lk; rewrite nth_nseq -sc lk; apply/eqP; apply: contraT => nz.
  have : (0 < hwt w)%N by apply/nz_hwt; exists k; exact/eqP.
  by rewrite h0.
rewrite w0 (@dotE _ n) ?size_nseq //; apply: big1 => k _.
by rewrite nth_nseq ltn_ord mulr0.
Qed.

Lemma trials_ok k t cutoff c fuel rnd dec m b d : code_ok c -> is_dist (cc_n c) (cc_mat c) d -> (d <= m)%N ->
  trials k t cutoff c None fuel rnd dec m = Some b -> (d <= b)%N.
Proof.
move=> ok hd; elim: k t m => /= [|k IH] t m lm; first by case=> <-.
case: ifP => _; first by case=> <-.
case E: bound_loop => [x|] //; apply: IH.
case: ok => wH _ _; have [w [hw nz <-]] := bound_loop_ok wH E.
by case: hd => _ /(_ w hw nz); lia.
Qed.

Lemma bound_ok num_trials cutoff c kd fuel rnd dec r d : code_ok c -> known_ok c kd -> is_dist (cc_n c) (cc_mat c) d ->
  get_distance_bound num_trials cutoff c kd None fuel rnd dec = Some r -> exists2 b, r = Dist b & (d <= b)%N.
Proof.
move=> ok kok hd; rewrite /get_distance_bound /=; have [[w [hw nz ew]] hmin] := hd.
have dim0 : (dimension c == 0%N) = false.
  apply/eqP => d0; case: nz => j; rewrite (dim0_word ok d0 hw) nth_nseq; by case: ifP.
rewrite dim0; case: kd kok => [[d'|]|] /=.
- by move=> [[w' [hw' nz' <-]] _] [<-]; exists (hwt w') => //; apply: hmin.
- by move=> h; rewrite h eqxx in dim0.
- move=> _; case E: trials => [b|] //= [<-]; exists b => //; apply: trials_ok E => //.
  by rewrite -ew (leq_trans (hwt_le w)) //; case: hw => ->.
Qed.

Lemma one_bound_ok c fuel rnd dec b d : code_ok c -> is_dist (cc_n c) (cc_mat c) d ->
  get_one_distance_bound c None fuel rnd dec = Some b -> (d <= b)%N.
Proof. by case=> wH _ _ [_ h] /= /(bound_loop_ok wH)[w [hw nz <-]]; exact: h. Qed.

(* ------------------------------------------------------------------------------- C16 *)
Lemma dist_correction n (H : mat) v e d : wf n H -> size v = n -> size e = n -> mulmv H e = mulmv H v ->
  is_vdist n H v d -> (d <= hwt e)%N.
Proof.
move=> wH sv se eq [_ h].
have hw : is_word n H (vsub v e).
  apply/is_wordE; first by rewrite size_vsub ?sv ?se.
  rewrite rv_sub ?sv ?se // mulmxBl.
  have E (u : vec) : size u = n -> rv n u *m (sp n H)^T = rv (size H) (mulmv H u).
    move=> su; apply/rowP => j; rewrite !mxE (nth_map [::]) //.
    rewrite (@dotE _ n) ?(wf_nth wH) //; apply: eq_bigr => k _.
    by rewrite !mxE mulrC.
  by rewrite !E // eq subrr.
have := h _ hw; rewrite vdist_hwt ?size_vsub ?sv ?se // => /leq_trans; apply.
rewrite leq_eqVlt; apply/orP; left; apply/eqP; rewrite /hwt.
have -> : vsub (vsub v e) v = [seq - x | x <- e].
  apply: (@eq_from_nth _ 0) => [|i]; first by rewrite !size_vsub ?size_map ?sv ?se.
  rewrite !size_vsub ?sv ?se // => li; rewrite !nth_vsub ?size_vsub ?sv ?se // (nth_map 0) ?se //.
  by rewrite addrAC subrr add0r.
by rewrite count_map; apply: eq_count => x /=; rewrite oppr_eq0.
Qed.

Lemma vector_bound_ok c v fuel rnd dec b d : code_ok c -> size v = cc_n c ->
  (let e := dec 0%N (cc_mat c) (mulmv (cc_mat c) v) in size e = cc_n c /\ mulmv (cc_mat c) e = mulmv (cc_mat c) v) ->
  is_vdist (cc_n c) (cc_mat c) v d -> get_one_distance_bound c (Some v) fuel rnd dec = Some b -> (d <= b)%N.
Proof. by case=> wH _ _ sv [se ee] hd [<-]; exact: dist_correction hd. Qed.

Lemma vector_trials_ok k t cutoff c v fuel rnd dec m b d : code_ok c -> size v = cc_n c ->
  (forall i, let e := dec i 0%N (cc_mat c) (mulmv (cc_mat c) v) in size e = cc_n c /\ mulmv (cc_mat c) e = mulmv (cc_mat c) v) ->
  is_vdist (cc_n c) (cc_mat c) v d -> (d <= m)%N -> trials k t cutoff c (Some v) fuel rnd dec m = Some b -> (d <= b)%N.
Proof.
move=> ok sv hdec hd; elim: k t m => /= [|k IH] t m lm; first by case=> <-.
case: ifP => _; first by case=> <-.
apply: IH; have := @vector_bound_ok c v fuel (rnd t) (dec t) _ d ok sv (hdec t) hd erefl; lia.
Qed.

Lemma vector_distance_bound_ok k cutoff c v kd fuel rnd dec r d : code_ok c -> size v = cc_n c ->
  (forall i, let e := dec i 0%N (cc_mat c) (mulmv (cc_mat c) v) in size e = cc_n c /\ mulmv (cc_mat c) e = mulmv (cc_mat c) v) ->
  is_vdist (cc_n c) (cc_mat c) v d -> get_distance_bound k cutoff c kd (Some v) fuel rnd dec = Some r ->
  exists2 b, r = Dist b & (d <= b)%N.
Proof.
move=> ok sv hdec hd; rewrite /get_distance_bound /=; have zw := zero_word (cc_n c) (cc_mat c).
have dz : (d <= hwt v)%N.
  have [_ h] := hd; have := h _ zw; rewrite vdist_hwt ?size_nseq // => /leq_trans; apply.
  have -> : vsub (vzero F (cc_n c)) v = [seq - x | x <- v].
    apply: (@eq_from_nth _ 0) => [|i]; first by rewrite size_vsub ?size_map ?size_nseq ?sv.
    rewrite size_vsub ?size_nseq ?sv // => li; rewrite nth_vsub ?size_nseq ?sv // (nth_map 0) ?sv // nth_nseq li.
    exact: sub0r.
  by rewrite /hwt count_map; apply: eq_leq; apply: eq_count => x /=; rewrite oppr_eq0.
case: ifP => _; first by case=> <-; exists (hwt v).
case E: trials => [b|] //= [<-]; exists b => //; apply: vector_trials_ok E => //.
by rewrite (leq_trans dz) // -sv hwt_le.
Qed.
End Proofs.

(* --------------------------------------------------------------------------------- refuted witnesses *)
Lemma overflow_refuted : exists (c : ccode [fieldType of 'F_2]) d,
  [/\ code_ok c, dimension c <> 0%N, is_dist (cc_n c) (cc_mat c) d
    & get_distance_exact Pack.BitwiseCount [:: 0; 1] c None None = None].
Proof.
have wf0 : wf 256 ([::] : seq (seq 'F_2)) by [].
exists (mkcode 256 [::]), 1%N; have dm : dimension (mkcode 256 ([::] : seq (seq [fieldType of 'F_2]))) = 256%N.
  by rewrite dimension_mk // flatmx0 mxrank0.
split; first exact: mkcode_ok.
- by rewrite dm.
- split.
    exists (vunit [fieldType of 'F_2] 256 0); split.
    + by split=> //; rewrite size_mkseq.
    + by exists 0%N; rewrite nth_mkseq.
    + rewrite /hwt /vunit /mkseq count_map; apply/eqP; by vm_compute.
  by move=> w _ /nz_hwt.
- rewrite /get_distance_exact /get_distance_if_known dm.
  by set x := GrayCode.get_distance_classical _ _ _ _; have -> : x = None by exact: GrayCode.distance_overflow.
Qed.

Lemma vector_bound_refuted : exists (c : ccode [fieldType of 'F_2]) v d dec,
  [/\ code_ok c, size v = cc_n c, is_vdist (cc_n c) (cc_mat c) v d,
      get_one_distance_bound c (Some v) 0 (fun _ => [::]) (dec 0%N) = Some 0%N /\
      get_distance_bound 1 None c None (Some v) 0 (fun _ _ => [::]) dec = Some (Dist 0) & (0 < d)%N].
Proof.
pose H : seq (seq 'F_2) := [:: [:: 1; 1]]; pose v : seq 'F_2 := [:: 1; 0].
exists (mkcode 2 H), v, 1%N, (fun _ _ _ _ => [:: 0; 0]).
have wH : wf 2 H by [].
split=> //.
- split.
    exists [:: 0; 0]; last by apply/eqP; vm_compute.
    by split=> // r; rewrite inE => /eqP->; rewrite !big_ord_recl big_ord0 /= !mulr0 !addr0.
  move=> w [sw h]; case: w sw h => [|a [|b [|]]] // _ h; have := h [:: 1; 1] (mem_head _ _).
  rewrite !big_ord_recl big_ord0 /= !mul1r addr0 => /eqP; rewrite addr_eq0 => /eqP eab.
  rewrite /= /ndiff /= lt0n addn0; apply/negP; rewrite !addn_eq0 /=.
  rewrite !eqb0 !negbK => /andP[/eqP a1 /eqP b0]; by move: eab; rewrite a1 b0 oppr0.
Qed.
