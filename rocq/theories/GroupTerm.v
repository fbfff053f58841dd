(* The loop of Group.from_generating_mats (abstract.py:298-349) ends exactly when the matrices generate a finite group. *)
From mathcomp Require Import all_ssreflect all_algebra zify.
From Verif Require Import LinAlg Classical PermGroup GroupTable.
Set Implicit Arguments.
Unset Strict Implicit.
Unset Printing Implicit Defensive.
Import GRing.Theory.
Local Open Scope ring_scope.

Section Ends.
Variables (T : eqType) (mul : T -> T -> T) (x0 : T) (P : T -> Prop) (S : seq T).
Hypothesis Pmul : forall x y, P x -> P y -> P (mul x y).
Hypothesis PS : forall x, P x -> x \in S.

Lemma loop_ends fuel old add tab : uniq (old ++ add) -> (forall x, x \in old ++ add -> P x) ->
  tab_ok mul x0 (old ++ add) [::] tab -> (size S < fuel + size old)%N ->
  exists r, gm_loop mul x0 fuel (enum 0 (old ++ add)) (enum (size old) add) (swap (old ++ add)) tab = Some r.
Proof.
elim: fuel old add tab => [|fuel IH] old add tab u hP ht hc; case: add u hP ht => [|x add] u hP ht.
- by exists (enum 0 (old ++ [::]), tab).
- have : (size (old ++ x :: add) <= size S)%N by apply: uniq_leq_size => // y /hP /PS.
  by rewrite size_cat /=; lia.
- by exists (enum 0 (old ++ [::]), tab).
set ms := old ++ x :: add in u hP ht *.
set ps := [seq (p.1, q.1) | p <- enum (size old) (x :: add), q <- enum 0 ms]; set s0 := GM (swap ms) [::] tab.
have -> : gm_loop mul x0 fuel.+1 (enum 0 ms) (enum (size old) (x :: add)) (swap ms) tab =
  let s := foldl (fun s ab => account mul x0 (enum 0 ms) (account mul x0 (enum 0 ms) s ab.1 ab.2) ab.2 ab.1) s0 ps in
  gm_loop mul x0 fuel (asets (enum 0 ms) (gm_new s)) (gm_new s) (gm_hash s) (gm_table s) by [].
have iv : ginv mul x0 P ms s0 [::] by split; rewrite ?cats0.
have hps : all (fun ab => (ab.1 < size ms)%N && (ab.2 < size ms)%N) ps.
  apply/allP => -[a b]; rewrite mem_pairs1 !keys_enum !mem_iota add0n leq0n andTb => /andP [/andP [_ h1] h2].
  by rewrite /= h2 andbT /ms size_cat.
have [ns [[e1 e2 e3 e4 e5] _]] := fold_inv Pmul iv hps; set s' := foldl _ _ _ in e1 e2 e5 *.
cbv zeta; have -> : asets (enum 0 ms) (gm_new s') = enum 0 (ms ++ ns).
  rewrite e2 asets_new; first by rewrite [RHS]enum_cat.
  rewrite map_cat !keys_enum; have := iota_uniq 0 (size ms + size ns); by rewrite iotaD add0n.
rewrite e2 e1; apply: IH => //; first exact: tab_ok_cat.
by move: hc; rewrite /ms size_cat /=; clear; lia.
Qed.

(* more fuel does not change the result *)
Lemma loop_fuel fuel k idx add hash tab r : gm_loop mul x0 fuel idx add hash tab = Some r ->
  gm_loop mul x0 (fuel + k) idx add hash tab = Some r.
Proof.
elim: fuel idx add hash tab => [|f IH] idx [|x add] hash tab //=; first by case: k.
by move/IH.
Qed.
End Ends.

Lemma gen_mats_fuel (T : eqType) (mul : T -> T -> T) x0 fuel k mats r :
  gen_mats mul x0 fuel mats = Some r -> gen_mats mul x0 (fuel + k) mats = Some r.
Proof.
by rewrite /gen_mats; case e: (gm_loop _ _ fuel _ _ _ _) => [[idx tab]|] //; rewrite (loop_fuel k e).
Qed.

Section MatGroup.
Variables (F : fieldType) (d : nat).
Notation sq := (@square F d).

(* the matrices that are products of the given ones *)
Definition generated (mats : seq (mat F)) (M : 'M[F]_d) : Prop :=
  exists w, [/\ w <> [::], all (fun i => i < size mats)%N w & M = word_prod d mats w].

Theorem gen_mats_ends mats : (0 < size mats)%N -> uniq mats -> all sq mats ->
  (exists S : seq 'M[F]_d, forall M, generated mats M -> M \in S) <->
  (exists fuel r, gen_mats (mull d) [::] fuel mats = Some r).
Proof.
move=> n0 u /allP hsq.
pose P (A : mat F) := sq A /\ generated mats (mx d d A).
have Pmul A B : P A -> P B -> P (mull d A B).
  move=> [qA [w [w0 hw eA]]] [qB [v [v0 hv eB]]]; split; first exact: sq_closed.
  exists (w ++ v); rewrite all_cat hw hv sq_mulE // eA eB word_prod_cat; split=> //; by case: w w0 {hw eA}.
have hP A : A \in mats -> P A.
  move=> hA; split; first exact: hsq.
  by exists [:: index A mats]; rewrite /= index_mem hA mulmx1 nth_index.
split; last first.
  move=> [fuel [[[gens table] idx] /(gen_mats_ok Pmul u hP) [ms /=]]].
  set all_ms := mats ++ ms; set m := size all_ms; case=> ei um hPm [sT eg hrow] ht.
  exists [seq mx d d A | A <- all_ms] => M [w [w0 hw ->]]; elim: w w0 hw => [|a w IH] // _ /= /andP [ha hw].
  have ha' : nth [::] mats a \in all_ms by rewrite mem_cat mem_nth.
  case: w IH hw => [|b w] IH hw; first by rewrite /= mulmx1; apply: map_f.
  have nz : b :: w <> [::] by [].
  have /mapP [B hB ->] := IH nz hw.
  have iB : (index B all_ms < m)%N by rewrite index_mem.
  have ia : (index (nth [::] mats a) all_ms < m)%N by rewrite index_mem.
  have [hlt e] := ht _ _ ia iB; rewrite !nth_index // in e.
  have [q1 _] := hPm _ ha'; have [q2 _] := hPm _ hB.
  by rewrite -sq_mulE // -e; apply: map_f; apply: mem_nth.
move=> [S hS].
pose S' : seq (mat F) := [seq mkmat d d (fun i j => if insub i is Some i' then if insub j is Some j' then (M : 'M[F]_d) i' j' else 0 else 0) | M <- S].
have PS A : P A -> A \in S'.
  case=> qA gA; apply/mapP; exists (mx d d A); first exact: hS.
  case/andP: qA => /andP [/eqP sA wA] _; apply: (@mat_ext _ d d); rewrite ?wf_mkmat ?size_mkseq //.
  move=> i j hi hj; rewrite ent_mkmat // !insubT /= mxE; congr (ent A _ _).
have ht0 : tab_ok (mull d) [::] ([::] ++ mats) [::] [::] by move=> a b c.
have hs : (size S' < (size S').+1 + size ([::] : seq (mat F)))%N by rewrite addn0.
have [[idx tab] el] := loop_ends Pmul PS (u : uniq ([::] ++ mats)) hP ht0 hs.
exists (size S').+1.
rewrite /gen_mats -/(enum 0 mats).
have -> : asets [::] [seq (p.2, p.1) | p <- enum 0 mats] = swap mats by rewrite asets_new //= -/(swap mats) keys_swap.
rewrite /= in el; rewrite [gm_loop _ _ _ _ _ _ _]el.
have [//|//|//|//|ms [h1 h2 h3 h4 h5]] := @loop_inv _ (mull d) [::] P Pmul (size S').+1 [::] mats [::] idx tab _ _ _ _ el.
rewrite !cat0s in h1 h2 h3 h4 h5.
set m := size idx; have sI : m = size (mats ++ ms) by rewrite /m h1 size_zip size_iota minnn.
rewrite /gm_result -/m; set table := mkseq _ _.
suff -> : all (valid m) [seq nth [::] table r | r <- iota 0 (size mats)] by eexists.
have lm : (size mats <= m)%N by rewrite sI size_cat leq_addr.
apply/allP => p /mapP [r]; rewrite mem_iota add0n /= => hr ->.
have hr' : (r < m)%N by apply: leq_trans lm.
rewrite nth_mkseq //.
have val i : (i < m)%N -> let c := odflt 0%N (aget tab (r, i)) in (c < m)%N /\
    nth [::] (mats ++ ms) c = mull d (nth [::] (mats ++ ms) r) (nth [::] (mats ++ ms) i).
  move=> hi; have := h5 r i; rewrite -sI /covers => /(_ hr' hi); case e: aget => [c|] // _.
  by have [_ _ hc ec] := h4 _ _ _ e; rewrite !cats0 -sI in hc ec *.
have M a : (a < m)%N -> sq (nth [::] (mats ++ ms) a) by rewrite sI => ha; have [] := h3 _ (mem_nth [::] ha).
apply: validP; first by rewrite size_mkseq.
  by move=> i hi; rewrite nth_mkseq //; case: (val i hi).
move=> i j hi hj; rewrite !nth_mkseq // => e.
have [_ ei] := val i hi; have [_ ej] := val j hj; rewrite e ej in ei.
have {ei} := congr1 (mx d d) ei; rewrite !sq_mulE ?M //.
move=> /(congr1 (mulmx (invmx (mx d d (nth [::] (mats ++ ms) r))))); rewrite !mulmxA mulVmx ?sq_unit ?M // !mul1mx.
by move=> /(sq_eq (M _ hj) (M _ hi)) /eqP; rewrite nth_uniq -?sI // => /eqP ->.
Qed.

(* the members of the group are lifted to all products of the matrices, each to a different one *)
Theorem gen_mats_members fuel mats gens table idx : (0 < size mats)%N -> uniq mats -> all sq mats ->
  gen_mats (mull d) [::] fuel mats = Some (gens, table, idx) ->
  let lift := gm_lift [::] table idx in
  [/\ uniq table, {in table &, injective lift}, forall p, p \in table -> sq (lift p)
    & forall M, (exists2 p, p \in table & mx d d (lift p) = M) <-> generated mats M].
Proof.
move=> n0 u hs eg; have [gT _ _ _ _] := gen_mats_group n0 u hs eg; move: hs => /allP hsq; move: eg.
pose P (A : mat F) := sq A /\ generated mats (mx d d A).
have Pmul A B : P A -> P B -> P (mull d A B).
  move=> [qA [w [w0 hw eA]]] [qB [v [v0 hv eB]]]; split; first exact: sq_closed.
  exists (w ++ v); rewrite all_cat hw hv sq_mulE // eA eB word_prod_cat; split=> //; by case: w w0 {hw eA}.
have hP A : A \in mats -> P A.
  move=> hA; split; first exact: hsq.
  by exists [:: index A mats]; rewrite /= index_mem hA mulmx1 nth_index.
move=> /(gen_mats_ok Pmul u hP) [ms /=]; set all_ms := mats ++ ms; set m := size all_ms.
case=> ei um hPm [sT eg hrow] ht; rewrite /gm_lift ei.
have uT : uniq table by case: gT.
have L a : (a < m)%N -> odflt [::] (aget (enum 0 all_ms) (table_index table (nth [::] table a))) = nth [::] all_ms a.
  move=> ha; have -> : table_index table (nth [::] table a) = a.
    rewrite /table_index; have -> : nth [::] table a = nth [::] (rev table) (size table - a.+1) by rewrite nth_rev sT; [congr nth | ]; move: ha; clear; lia.
    rewrite index_uniq ?rev_uniq // ?size_rev sT; move: ha; clear; lia.
  by rewrite -[a]add0n (aget_enum [::]) -/m ha.
split=> //.
- move=> p r /(nthP [::]) [a ha <-] /(nthP [::]) [b hb <-]; rewrite sT in ha hb; rewrite !L // => /eqP.
  by rewrite nth_uniq // => /eqP ->.
- by move=> p /(nthP [::]) [a ha <-]; rewrite sT in ha; rewrite L //; case: (hPm _ (mem_nth [::] ha)).
move=> M; split.
  by case=> p /(nthP [::]) [a ha <-] <-; rewrite sT in ha; rewrite L //; case: (hPm _ (mem_nth [::] ha)).
move=> [w [w0 hw ->]]; suff [A hA ->] : exists2 A, A \in all_ms & word_prod d mats w = mx d d A.
  have iA : (index A all_ms < m)%N by rewrite index_mem.
  by exists (nth [::] table (index A all_ms)); rewrite ?mem_nth ?sT // L // nth_index.
elim: w w0 hw => [|a w IH] // _ /= /andP [ha hw].
have ha' : nth [::] mats a \in all_ms by rewrite mem_cat mem_nth.
case: w IH hw => [|b w] IH hw; first by exists (nth [::] mats a) => //; rewrite /= mulmx1.
have nz : b :: w <> [::] by [].
have [B hB ->] := IH nz hw.
have iB : (index B all_ms < m)%N by rewrite index_mem.
have ia : (index (nth [::] mats a) all_ms < m)%N by rewrite index_mem.
have [hlt e] := ht _ _ ia iB; rewrite !nth_index // in e.
have [q1 _] := hPm _ ha'; have [q2 _] := hPm _ hB.
by rewrite -sq_mulE // -e; exists (nth [::] all_ms (tb table (index (nth [::] mats a) all_ms) (index B all_ms))) => //; apply: mem_nth.
Qed.
End MatGroup.

(* over a finite field the loop always ends *)
Theorem gen_mats_finite (F : finFieldType) d (mats : seq (mat F)) : (0 < size mats)%N -> uniq mats -> all (@square F d) mats ->
  exists fuel r, gen_mats (mull d) [::] fuel mats = Some r.
Proof.
by move=> n0 u hs; apply/gen_mats_ends => //; exists (fintype.enum [finType of 'M[F]_d]) => M _; rewrite mem_enum.
Qed.
