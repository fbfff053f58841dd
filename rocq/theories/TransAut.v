(* Automorphisms of the instrumental code: model of qldpc/circuits.py:190-227, on top of the circuits of Circuits.v. *)
From mathcomp Require Import all_ssreflect zify.
From Verif Require Import Circuits.
Set Implicit Arguments.
Unset Strict Implicit.
Unset Printing Implicit Defensive.

(* ====================================================================== specification *)
(* does a Pauli operator on one qubit anticommute with a check whose X and Z bits on this qubit are hx and hz *)
Definition anti (p : pauli) (hx hz : bool) : bool := match p with PX => hz | PZ => hx | PY => hx (+) hz end.
(* a check: its X part and its Z part; an operator: a product of Pauli operators (qubit, type), up to phase *)
Definition check := (seq bool * seq bool)%type.
Definition anti_op (h : check) (l : seq (nat * pauli)) : bool :=
  \big[addb/false]_(qp <- l) anti qp.2 (nth false h.1 qp.1) (nth false h.2 qp.1).
Definition commutes (H : seq check) (l : seq (nat * pauli)) : Prop := forall h, h \in H -> anti_op h l = false.

(* ============================================================================== model *)
(* circuits.py:208 and math.py:52-61 (over GF(2)): the effective parity checks, from the checks C and the logical operators L of
   the code *)
Definition eff_checks (deform_code : bool) (C L : seq check) : seq check :=
  if deform_code then [seq (h.2, h.1) | h <- L] else C.
(* circuits.py:209-220: a row of the instrumental matrix, from the X part and the Z part of a check.  The sets of local gates are
   lists without repetition *)
Definition addv (u v : seq bool) : seq bool := [seq p.1 (+) p.2 | p <- zip u v].
Definition inst_row (gs : seq lgate) (h : check) : seq bool :=
  match gs with
  | [::] | [:: LH] => h.1 ++ h.2
  | [:: LS] => h.2 ++ addv h.1 h.2
  | [:: LSX] => h.1 ++ addv h.1 h.2
  | _ => h.1 ++ (h.2 ++ addv h.1 h.2)
  end.
(* circuits.py:222-224: words of the instrumental code *)
Definition dot (N : nat) (r : seq bool) (e : nat -> bool) : bool := \big[addb/false]_(x <- iota 0 N) (nth false r x && e x).
Definition word (n : nat) (gs : seq lgate) (H : seq check) (e : nat -> bool) : Prop :=
  forall h, h \in H -> dot (size (sectors gs) * n) (inst_row gs h) e = false.
(* instrumental_code.get_automorphism_group() (GAP, external): permutations a of the columns such that words are mapped to words;
   a maps e to e' if e' (a x) = e x *)
Definition automorphism (n : nat) (gs : seq lgate) (H : seq check) (a : nat -> nat) : Prop :=
  forall e e' : nat -> bool, (forall x, x < size (sectors gs) * n -> e' (a x) = e x) -> word n gs H e -> word n gs H e'.

(* ============================================================================= proofs *)
Lemma addv_nth n (h : check) q : size h.1 = n -> size h.2 = n -> q < n ->
  nth false (addv h.1 h.2) q = nth false h.1 q (+) nth false h.2 q.
Proof.
move=> h1 h2 hq; rewrite /addv (nth_map (false, false)) ?size_zip ?h1 ?h2 ?minnn //.
by rewrite nth_zip ?h1 ?h2.
Qed.
Lemma addv_size n (h : check) : size h.1 = n -> size h.2 = n -> size (addv h.1 h.2) = n.
Proof. by move=> h1 h2; rewrite size_map size_zip h1 h2 minnn. Qed.

Lemma inst_nth n gs (h : check) q s : size h.1 = n -> size h.2 = n -> q < n -> s < size (sectors gs) ->
  nth false (inst_row gs h) (s * n + q) = anti (nth PX (sectors gs) s) (nth false h.1 q) (nth false h.2 q).
Proof.
move=> h1 h2 hq.
have two (u v : seq bool) : size u = n -> s < 2 -> nth false (u ++ v) (s * n + q) = if s == 0 then nth false u q else nth false v q.
  move=> hu; case: s => [|[|s]] // _; rewrite nth_cat hu ?mul0n ?add0n ?hq //.
  by rewrite mul1n ltnNge leq_addr /= addKn.
have three (u v w : seq bool) : size u = n -> size v = n -> s < 3 -> nth false (u ++ (v ++ w)) (s * n + q) =
    if s == 0 then nth false u q else if s == 1 then nth false v q else nth false w q.
  move=> hu hv; case: s {two} => [|[|[|s]]] // _; rewrite nth_cat hu ?mul0n ?add0n ?hq //.
    by rewrite mul1n ltnNge leq_addr /= addKn nth_cat hv hq.
  have -> : (2 * n + q < n) = false by move: hq; clear; lia.
  have -> : 2 * n + q - n = n + q by lia.
  by rewrite nth_cat hv ltnNge leq_addr /= addKn.
have ha := addv_nth h1 h2 hq.
case: gs => [|[] [|g gs]] /= hs; (rewrite three // || rewrite two //); by case: s {two three} hs => [|[|[|s]]] //= _; rewrite ?ha.
Qed.

(* the Pauli operator of a column *)
Definition pos (n : nat) (gs : seq lgate) (x : nat) : nat * pauli := (x %% n, nth PX (sectors gs) (x %/ n)).
Definition op (n : nat) (gs : seq lgate) (e : nat -> bool) : seq (nat * pauli) :=
  [seq pos n gs x | x <- iota 0 (size (sectors gs) * n) & e x].
Lemma sectors_gt0 gs : 0 < size (sectors gs).
Proof. by case: gs => [|[] [|g gs]]. Qed.
Lemma row_pos n gs (h : check) x : size h.1 = n -> size h.2 = n -> x < size (sectors gs) * n ->
  nth false (inst_row gs h) x = anti (pos n gs x).2 (nth false h.1 (pos n gs x).1) (nth false h.2 (pos n gs x).1).
Proof.
move=> h1 h2 hx; have n0 : 0 < n by case: n hx {h1 h2} => //; rewrite muln0.
by rewrite {1}(divn_eq x n) (inst_nth h1 h2) ?ltn_mod ?ltn_divLR.
Qed.
Lemma dot_op n gs (h : check) e : size h.1 = n -> size h.2 = n ->
  dot (size (sectors gs) * n) (inst_row gs h) e = anti_op h (op n gs e).
Proof.
move=> h1 h2; rewrite /dot /anti_op /op big_map big_filter [RHS]big_mkcond /= !big_seq; apply: eq_bigr => x.
rewrite mem_iota add0n => hx; rewrite (row_pos h1 h2 hx) andbC; by case: (e x).
Qed.

(* the automorphism permutes the columns *)
Lemma perm_iota (a : nat -> nat) N : (forall x, x < N -> a x < N) -> (forall x y, x < N -> y < N -> a x = a y -> x = y) ->
  perm_eq (map a (iota 0 N)) (iota 0 N).
Proof.
move=> h1 h2.
have u : uniq (map a (iota 0 N)).
  by rewrite map_inj_in_uniq ?iota_uniq // => x y; rewrite !mem_iota !add0n; apply: h2.
have sub : {subset map a (iota 0 N) <= iota 0 N}.
  by move=> y /mapP [x]; rewrite mem_iota add0n => hx ->; rewrite mem_iota add0n h1.
have [_ e] := uniq_min_size u sub (eq_leq (esym (size_map a (iota 0 N)))).
by apply: uniq_perm => //; apply: iota_uniq.
Qed.
Lemma group_perm n gs sw a : gen_by (is_gen n gs sw) a ->
  (forall x, x < size (sectors gs) * n -> a x < size (sectors gs) * n) /\
  (forall x y, x < size (sectors gs) * n -> y < size (sectors gs) * n -> a x = a y -> x = y).
Proof.
case/block_group => w [t [[wlt winj tlt tinj e] _]]; set k := size _ in tlt tinj e *.
have dec x : x < k * n -> [/\ x %% n < n, x %/ n < k & a x = t (x %% n) (x %/ n) * n + w (x %% n)].
  move=> hx; have n0 : 0 < n by case: n hx {wlt winj tlt tinj e} => //; rewrite muln0.
  have hq : x %% n < n by rewrite ltn_mod.
  have hs : x %/ n < k by rewrite ltn_divLR.
  by split=> //; rewrite {1}(divn_eq x n) e.
split=> [x /dec [hq hs ->] | x y /dec [hq hs ->] /dec [hq' hs' ->] E].
  apply: (@leq_trans ((t (x %% n) (x %/ n)).+1 * n)); last by rewrite leq_mul2r tlt ?orbT.
  by rewrite mulSn addnC ltn_add2r wlt.
have n0 : 0 < n by apply: leq_ltn_trans hq.
have E2 : w (x %% n) = w (y %% n).
  by have := congr1 (modn^~ n) E; rewrite !modnMDl (modn_small (wlt _ hq)) (modn_small (wlt _ hq')).
have E1 : t (x %% n) (x %/ n) = t (y %% n) (y %/ n).
  by have := congr1 (divn^~ n) E; rewrite !divnMDl // (divn_small (wlt _ hq)) (divn_small (wlt _ hq')) !addn0.
have Eq := winj _ _ hq hq' E2; rewrite -Eq in E1.
by rewrite (divn_eq x n) (divn_eq y n) Eq (tinj _ _ _ hq hs hs' E1).
Qed.

Lemma image_op n gs (h : check) a c (e e' : nat -> bool) : size h.1 = n -> size h.2 = n ->
  (forall x, x < size (sectors gs) * n -> a x < size (sectors gs) * n) ->
  (forall x y, x < size (sectors gs) * n -> y < size (sectors gs) * n -> a x = a y -> x = y) ->
  (forall x, x < size (sectors gs) * n -> run c (pos n gs x) = pos n gs (a x)) ->
  (forall x, x < size (sectors gs) * n -> e' (a x) = e x) ->
  anti_op h (map (run c) (op n gs e)) = dot (size (sectors gs) * n) (inst_row gs h) e'.
Proof.
move=> h1 h2 ha hi hc he; rewrite /dot -(perm_big _ (perm_iota ha hi)) /= big_map.
rewrite /anti_op /op -map_comp big_map big_filter big_mkcond /= !big_seq; apply: eq_bigr => x.
rewrite mem_iota add0n => hx; rewrite he // hc // (row_pos h1 h2 (ha _ hx)) andbC; by case: (e x).
Qed.

(* circuits respect products *)
Lemma act1_inj g : injective (act1 g).
Proof. by case: g; case; case. Qed.
Lemma run_lin c q : exists q' (f : pauli -> pauli), injective f /\ forall p, run c (q, p) = (q', f p).
Proof.
elim: c q => [|i c IH] q; first by exists q, id; split=> [p p2 -> | p].
case: i => [x y | g ts].
  by have [q' [f [hf h]]] := IH (swap_loc x y q); exists q', f; split=> // p; rewrite /run /= -/(run _ _) h.
have [q' [f [hf h]]] := IH q; exists q', (fun p => f (iter (count_mem q ts) (act1 g) p)); split; last first.
  by move=> p; rewrite /run /= -/(run _ _) h.
move=> p p' /hf; elim: (count_mem q ts) => //= k IHk /act1_inj; exact: IHk.
Qed.
Lemma anti3 (f : pauli -> pauli) hx hz : injective f -> anti (f PX) hx hz (+) anti (f PY) hx hz (+) anti (f PZ) hx hz = false.
Proof.
move=> hf; have h1 : f PX <> f PY by move/hf. have h2 : f PX <> f PZ by move/hf. have h3 : f PY <> f PZ by move/hf.
by move: h1 h2 h3; case: (f PX); case: (f PY); case: (f PZ) => // _ _ _; case: hx; case: hz.
Qed.
Lemma expand gs p : exists2 ss, all (fun s => s < size (sectors gs)) ss &
  forall (f : pauli -> pauli) hx hz, injective f ->
    anti (f p) hx hz = \big[addb/false]_(s <- ss) anti (f (nth PX (sectors gs) s)) hx hz.
Proof.
have one s : s < size (sectors gs) -> nth PX (sectors gs) s = p -> exists2 ss, all (fun s => s < size (sectors gs)) ss &
  forall (f : pauli -> pauli) hx hz, injective f ->
    anti (f p) hx hz = \big[addb/false]_(s <- ss) anti (f (nth PX (sectors gs) s)) hx hz.
  by move=> hs es; exists [:: s]; rewrite /= ?hs // => f hx hz _; rewrite big_seq1 es.
have two : (forall (f : pauli -> pauli) hx hz, injective f ->
    anti (f p) hx hz = anti (f (nth PX (sectors gs) 0)) hx hz (+) anti (f (nth PX (sectors gs) 1)) hx hz) ->
  exists2 ss, all (fun s => s < size (sectors gs)) ss &
  forall (f : pauli -> pauli) hx hz, injective f ->
    anti (f p) hx hz = \big[addb/false]_(s <- ss) anti (f (nth PX (sectors gs) s)) hx hz.
  move=> H; exists [:: 0; 1]; first by case: gs {H one} => [|[] [|g gs]].
  by move=> f hx hz hf; rewrite !big_cons big_nil addbF H.
have tri := anti3.
case: gs p one two => [|[] [|g gs]] [] one two;
  try (by apply: (one 0)); try (by apply: (one 1)); try (by apply: (one 2));
  by apply: two => f hx hz hf /=; have := tri f hx hz hf; do 3 case: (anti (f _) _ _).
Qed.

Lemma expand_op n gs l : all (fun qp : nat * pauli => qp.1 < n) l -> exists2 xs, all (fun x => x < size (sectors gs) * n) xs &
  forall c (h : check), anti_op h (map (run c) l) =
    \big[addb/false]_(x <- xs) anti (run c (pos n gs x)).2 (nth false h.1 (run c (pos n gs x)).1) (nth false h.2 (run c (pos n gs x)).1).
Proof.
elim: l => [|[q p] l IH] /=; first by move=> _; exists [::] => // c h; rewrite /anti_op !big_nil.
case/andP => hq /IH [xs hxs E]; have [ss hss F] := expand gs p.
exists ([seq s * n + q | s <- ss] ++ xs).
  rewrite all_cat hxs andbT all_map; apply: sub_all hss => s /= hs.
  apply: (@leq_trans (s.+1 * n)); last by rewrite leq_mul2r hs orbT.
  by rewrite mulSn addnC ltn_add2r.
move=> c h; rewrite big_cat /= -E big_map /anti_op big_cons; congr (_ (+) _).
have [q' [f [hf R]]] := run_lin c q; rewrite R /= (F f) //; apply: eq_bigr => s _.
have n0 : 0 < n by apply: leq_ltn_trans hq.
by rewrite /pos modnMDl modn_small // divnMDl // divn_small // addn0 R.
Qed.
Lemma parity N xs (F : nat -> bool) : all (fun x => x < N) xs ->
  \big[addb/false]_(x <- xs) F x = \big[addb/false]_(x <- iota 0 N) (odd (count_mem x xs) && F x).
Proof.
elim: xs => [|y xs IH] /=; first by move=> _; rewrite big_nil big1.
case/andP => hy /IH E; rewrite big_cons E.
have -> : F y = \big[addb/false]_(x <- iota 0 N) ((y == x) && F x).
  rewrite (bigD1_seq y) ?iota_uniq ?mem_iota ?add0n //= eqxx /= big1 ?addbF // => x.
  by rewrite eq_sym => /negbTE ->.
rewrite -big_split /=; apply: eq_bigr => x _; rewrite oddD; by case: (y == x); case: (odd _); case: (F x).
Qed.
Lemma as_word n gs l : all (fun qp : nat * pauli => qp.1 < n) l -> exists e, forall c (h : check),
  anti_op h (map (run c) l) = anti_op h (map (run c) (op n gs e)).
Proof.
case/(expand_op gs) => xs hxs E; exists (fun x => odd (count_mem x xs)) => c h.
rewrite E (parity _ hxs) /anti_op /op -map_comp big_map big_filter [RHS]big_mkcond /=.
by apply: eq_bigr => x _; case: (odd _).
Qed.

Lemma aut_iff n gs sw a c H : uniq gs -> gen_by (is_gen n gs sw) a -> aut_circuit n a gs = Some c ->
  (forall h, h \in H -> size h.1 = n /\ size h.2 = n) ->
  automorphism n gs H a <->
  (forall l, all (fun qp : nat * pauli => qp.1 < n) l -> commutes H l -> commutes H (map (run c) l)).
Proof.
move=> u hg ec hH; have [ha hi] := group_perm hg.
have hc x : x < size (sectors gs) * n -> run c (pos n gs x) = pos n gs (a x).
  move=> hx; have n0 : 0 < n by case: n hx {hg ec hH ha hi} => //; rewrite muln0.
  have [c' ec' R] := group_circuit_ok u hg; move: ec'; rewrite ec => -[e]; rewrite -e in R.
  by rewrite /pos R ?ltn_mod ?ltn_divLR // -divn_eq.
split=> [A l hl hcl h hh | C e e' he hw h hh]; have [h1 h2] := hH h hh.
  have [e E] := as_word gs hl.
  pose e' y := has (fun x => (a x == y) && e x) (iota 0 (size (sectors gs) * n)).
  have he x : x < size (sectors gs) * n -> e' (a x) = e x.
    move=> hx; apply/hasP/idP => [[y]|ex]; last by exists x; rewrite ?mem_iota ?eqxx.
    by rewrite mem_iota add0n => hy /andP [/eqP /(hi _ _ hy hx) ->].
  rewrite E (image_op h1 h2 ha hi hc he); apply: (A e e' he) => // h' hh'; have [h1' h2'] := hH h' hh'.
  rewrite (dot_op gs e h1' h2'); have := E [::] h'; rewrite !map_id => <-; exact: hcl.
rewrite -(image_op h1 h2 ha hi hc he); apply: C => //.
  rewrite all_map; apply/allP => x; rewrite mem_filter mem_iota add0n => /andP [_ hx] /=.
  by rewrite ltn_mod; case: n hx {hg ec hH ha hi hc he hw h1 h2} => //; rewrite muln0.
by move=> h' hh'; have [h1' h2'] := hH h' hh'; rewrite -(dot_op gs e h1' h2'); apply: hw.
Qed.

(* ---- deformations with the gates SWAP and H *)
Definition xz (p : pauli) : pauli := match p with PX => PZ | PZ => PX | PY => PY end.
Definition xzq (qp : nat * pauli) : nat * pauli := (qp.1, xz qp.2).
Lemma anti_xz h l : anti_op (h.2, h.1) l = anti_op h (map xzq l).
Proof. by rewrite /anti_op big_map; apply: eq_bigr => -[q []] _ //=; rewrite addbC. Qed.
Lemma commutes_xz L l : commutes [seq (h.2, h.1) | h <- L] l <-> commutes L (map xzq l).
Proof.
split=> H h.
  by move=> hh; rewrite -anti_xz; apply: H; apply/mapP; exists h.
by case/mapP => k hk ->; rewrite anti_xz; apply: H.
Qed.
Lemma run_xz n gs sw a c q p : gs = [::] \/ gs = [:: LH] -> uniq gs -> gen_by (is_gen n gs sw) a -> aut_circuit n a gs = Some c ->
  q < n -> run c (q, xz p) = xzq (run c (q, p)).
Proof.
move=> hgs u hg ec hq.
have es : sectors gs = [:: PZ; PX] by case: hgs => ->.
have [c' ec' R] := group_circuit_ok u hg; move: ec'; rewrite ec => -[e]; rewrite -e in R.
have [q' [f [hf E]]] := run_lin c q; rewrite /xzq !E /=; congr (_, _).
have no s : s < 2 -> f (nth PX [:: PZ; PX] s) <> PY.
  move=> hs eY; have := R q s hq; rewrite es E /= eY => /(_ hs) -[_].
  by case: (a _ %/ n) => [|[|k]] //=; rewrite nth_nil.
have := no 0 isT; have := no 1 isT; rewrite /=.
have h1 : f PX <> f PY by move/hf. have h2 : f PX <> f PZ by move/hf. have h3 : f PY <> f PZ by move/hf.
by move: h1 h2 h3; case: p => /=; case: (f PX); case: (f PY); case: (f PZ).
Qed.
Lemma deform_iff n gs sw a c L : gs = [::] \/ gs = [:: LH] -> uniq gs -> gen_by (is_gen n gs sw) a -> aut_circuit n a gs = Some c ->
  (forall h, h \in L -> size h.1 = n /\ size h.2 = n) ->
  automorphism n gs [seq (h.2, h.1) | h <- L] a <->
  (forall l, all (fun qp : nat * pauli => qp.1 < n) l -> commutes L l -> commutes L (map (run c) l)).
Proof.
move=> hgs u hg ec hL.
have hL' h : h \in [seq (h.2, h.1) | h <- L] -> size h.1 = n /\ size h.2 = n by case/mapP => k /hL [h1 h2] ->.
have X l : all (fun qp : nat * pauli => qp.1 < n) l -> map xzq (map (run c) l) = map (run c) (map xzq l).
  elim: l => //= -[q p] l IH /andP [hq /IH ->]; congr (_ :: _).
  by rewrite -(run_xz p hgs u hg ec hq).
have I l : map xzq (map xzq l) = l by rewrite -map_comp -[RHS]map_id; apply: eq_map => -[q []].
have B l : all (fun qp : nat * pauli => qp.1 < n) (map xzq l) = all (fun qp : nat * pauli => qp.1 < n) l by rewrite all_map.
rewrite (aut_iff u hg ec hL'); split=> H l hl hc.
  rewrite -(I l) -X ?B //; apply/commutes_xz; apply: H; rewrite ?B //; apply/commutes_xz; by rewrite I.
by apply/commutes_xz; rewrite X //; apply: H; [rewrite B | apply/commutes_xz].
Qed.
