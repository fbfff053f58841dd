(* Layout and exponent arithmetic of bivariate bicycle codes: model of qldpc/codes/quantum.py:297-318, 418-464, 543-628. *)
From mathcomp Require Import all_ssreflect all_algebra zify ring.
Set Implicit Arguments.
Unset Strict Implicit.
Unset Printing Implicit Defensive.
Import GRing.Theory Num.Theory.

(* ============================================================================== model *)
Inductive sector := SL | SR | SX | SZ.
Definition sector_code (s : sector) : nat := match s with SL => 0 | SR => 1 | SX => 2 | SZ => 3 end.
Definition sector_decode (n : nat) : sector := match n with 0 => SL | 1 => SR | 2 => SX | _ => SZ end.
Lemma sector_codeK : cancel sector_code sector_decode. Proof. by case. Qed.
Definition sector_eqMixin := CanEqMixin sector_codeK.
Canonical sector_eqType := Eval hnf in EqType sector sector_eqMixin.

(* np.unravel_index(index, (2, ra, rb)) (external); None is ValueError *)
Definition unravel (ra rb i : nat) : option (nat * nat * nat) :=
  if i < 2 * ra * rb then Some (i %/ (ra * rb), i %/ rb %% ra, i %% rb) else None.

(* quantum.py:418-431: get_node_label_from_orders; a node is (index, is_data), objects.py:155-176 *)
Definition node_label (ra rb : nat) (node : nat * bool) : option (sector * nat * nat) :=
  omap (fun c : nat * nat * nat => let: (s, a, b) := c in
    (if node.2 then (if s == 0 then SL else SR) else (if s == 0 then SX else SZ), a, b)) (unravel ra rb node.1).

(* quantum.py:446-464: get_qubit_pos_from_orders for a label *)
Definition fold_coord (order x : nat) : nat := if x < order then 2 * x else (2 * order - 1 - x) * 2 + 1.
Definition label_pos (folded : bool) (ra rb : nat) (l : sector * nat * nat) : nat * nat :=
  let: (s, a, b) := l in
  let x := 2 * a + ((s == SR) || (s == SX)) in
  let y := 2 * b + ((s == SL) || (s == SX)) in
  if folded then (fold_coord ra x, fold_coord rb y) else (x, y).
Definition qubit_pos (folded : bool) (ra rb : nat) (node : nat * bool) : option (nat * nat) :=
  omap (label_pos folded ra rb) (node_label ra rb node).

(* ============================================================================= proofs *)
Lemma unravelK ra rb s a b : s < 2 -> a < ra -> b < rb -> unravel ra rb (s * (ra * rb) + (a * rb + b)) = Some (s, a, b).
Proof.
move=> hs ha hb; have lab : a * rb + b < ra * rb.
  by apply: (@leq_trans (a.+1 * rb)); [rewrite mulSn addnC ltn_add2r | rewrite leq_mul2r ha orbT].
have ra0 : 0 < ra by apply: leq_ltn_trans ha.
have rb0 : 0 < rb by apply: leq_ltn_trans hb.
rewrite /unravel ifT; last first.
  rewrite -mulnA; apply: (@leq_trans (s.+1 * (ra * rb))); first by rewrite mulSn addnC ltn_add2r.
  by rewrite leq_mul2r hs orbT.
have -> : (s * (ra * rb) + (a * rb + b)) %/ (ra * rb) = s by rewrite divnMDl ?muln_gt0 ?ra0 // divn_small ?addn0.
have -> : s * (ra * rb) + (a * rb + b) = (s * ra + a) * rb + b by rewrite mulnDl mulnA addnA.
by rewrite modnMDl (modn_small hb) divnMDl // (divn_small hb) addn0 modnMDl modn_small.
Qed.

Lemma unravel_some ra rb i c : unravel ra rb i = Some c ->
  [/\ c.1.1 < 2, c.1.2 < ra, c.2 < rb & i = c.1.1 * (ra * rb) + (c.1.2 * rb + c.2)].
Proof.
rewrite /unravel; case: ltnP => // lt [<-] /=.
have pos : 0 < ra * rb by move: lt; rewrite -mulnA; case: (ra * rb) => //; rewrite muln0.
have /andP [ra0 rb0] : (0 < ra) && (0 < rb) by rewrite -muln_gt0.
split; rewrite ?ltn_mod //; first by rewrite ltn_divLR // mulnA.
by rewrite {1}(divn_eq i rb) {1}(divn_eq (i %/ rb) ra) -divnMA [rb * ra]mulnC mulnDl -mulnA addnA.
Qed.

(* specification: labels of the qubits *)
Definition label_ok (ra rb : nat) (l : sector * nat * nat) : bool := (l.1.2 < ra) && (l.2 < rb).

Lemma node_label_some ra rb nd l : node_label ra rb nd = Some l -> label_ok ra rb l.
Proof.
rewrite /node_label; case u: (unravel ra rb nd.1) => [[[s a] b]|] //= [<-].
by rewrite /label_ok; have [_ /= -> -> _] := unravel_some u.
Qed.

Theorem node_label_inj ra rb nd nd' l : node_label ra rb nd = Some l -> node_label ra rb nd' = Some l -> nd = nd'.
Proof.
rewrite /node_label; case: nd nd' => [i d] [i' d'] /=.
case u: (unravel ra rb i) => [[[s a] b]|] //= [<-]; case u': (unravel ra rb i') => [[[s' a'] b']|] //= [es ea eb]; rewrite ea eb in u'.
have [/= hs _ _ ->] := unravel_some u; have [/= hs' _ _ ->] := unravel_some u'.
by case: d d' es => [] []; case: s hs {u} => [|[|s]] // _; case: s' hs' {u'} => [|[|s']].
Qed.

Theorem node_label_total ra rb i d : i < 2 * ra * rb -> exists l, node_label ra rb (i, d) = Some l.
Proof. by move=> lt; rewrite /node_label /unravel /= lt; eexists. Qed.

Theorem node_label_surj ra rb l : label_ok ra rb l -> exists nd, nd.1 < 2 * ra * rb /\ node_label ra rb nd = Some l.
Proof.
case: l => [[s a] b] /andP /= [ha hb].
pose k := match s with SL | SX => 0 | _ => 1 end; have hk : k < 2 by rewrite /k; case: (s).
have u := unravelK hk ha hb.
exists (k * (ra * rb) + (a * rb + b), match s with SL | SR => true | _ => false end) => /=.
split; first by move: u; rewrite /unravel; case: ltnP.
by rewrite /node_label /= u /k; case: (s).
Qed.

Lemma fold_inj o x y : x < 2 * o -> y < 2 * o -> fold_coord o x = fold_coord o y -> x = y.
Proof. rewrite /fold_coord; case: (ltnP x o); case: (ltnP y o); lia. Qed.
Lemma fold_lt o x : x < 2 * o -> fold_coord o x < 2 * o.
Proof. rewrite /fold_coord; case: (ltnP x o); lia. Qed.
Lemma fold_surj o x : x < 2 * o -> exists2 y, y < 2 * o & fold_coord o y = x.
Proof.
move=> lt; have := odd_double_half x; rewrite -divn2 -muln2; case: (odd x) => /= e.
  exists (2 * o - 1 - x %/ 2); rewrite /fold_coord; first by lia.
  by case: (ltnP (2 * o - 1 - x %/ 2) o); lia.
exists (x %/ 2); rewrite /fold_coord; first by lia.
by case: (ltnP (x %/ 2) o); lia.
Qed.

Theorem label_pos_lt f ra rb l : label_ok ra rb l -> ((label_pos f ra rb l).1 < 2 * ra) && ((label_pos f ra rb l).2 < 2 * rb).
Proof.
case: l => [[s a] b] /andP /= [ha hb]; have hx (u v : nat) (c : bool) : u < v -> 2 * u + c < 2 * v by case: c; lia.
by case: f => /=; rewrite ?fold_lt ?hx.
Qed.

Theorem label_pos_inj f ra rb l l' : label_ok ra rb l -> label_ok ra rb l' ->
  label_pos f ra rb l = label_pos f ra rb l' -> l = l'.
Proof.
case: l l' => [[s a] b] [[s' a'] b'] /andP /= [ha hb] /andP /= [ha' hb'].
have hx (u v : nat) (c : bool) : u < v -> 2 * u + c < 2 * v by case: c; lia.
have key (u v : nat) (c c' : bool) : 2 * u + c = 2 * v + c' -> u = v /\ c = c' by case: c; case: c'; lia.
case: f => -[ex ey].
  move/fold_inj: ex => /(_ (hx _ _ _ ha) (hx _ _ _ ha')) /key [-> e1].
  by move/fold_inj: ey => /(_ (hx _ _ _ hb) (hx _ _ _ hb')) /key [-> e2]; move: e1 e2; case: (s); case: (s').
by move/key: ex => [-> e1]; move/key: ey => [-> e2]; move: e1 e2; case: (s); case: (s').
Qed.

Theorem label_pos_surj f ra rb p : p.1 < 2 * ra -> p.2 < 2 * rb -> exists2 l, label_ok ra rb l & label_pos f ra rb l = p.
Proof.
suff h x y : x < 2 * ra -> y < 2 * rb -> exists2 l, label_ok ra rb l & label_pos false ra rb l = (x, y).
  case: p => x y /= hx hy; case: f; last exact: h.
  have [x' hx' <-] := fold_surj hx; have [y' hy' <-] := fold_surj hy.
  by have [[[s a] b] ok [e1 e2]] := h _ _ hx' hy'; exists (s, a, b) => //=; rewrite e1 e2.
move=> hx hy; pose s := if odd x then (if odd y then SX else SR) else (if odd y then SL else SZ).
exists (s, x %/ 2, y %/ 2); first by rewrite /label_ok /=; apply/andP; split; lia.
by rewrite /= /s; have := odd_double_half x; have := odd_double_half y; rewrite -!divn2 -!muln2;
  case: (odd x); case: (odd y) => /= *; congr pair; lia.
Qed.

(* ============================================================================== model *)
Section Basis.
Variables ra rb : nat.
Local Open Scope ring_scope.
Notation vec2 := (int * int)%type.

(* quantum.py:602-609: get_order *)
Definition period (r : nat) (v : int) : nat := r %/ gcdn `|v|%N r.
Definition get_order (v : vec2) : nat :=
  let p0 := period ra v.1 in let p1 := period rb v.2 in p0 * p1 %/ gcdn p0 p1.

(* quantum.py:622-627: the point reached with given coefficients *)
Definition point (v w : vec2) (a b : nat) : nat * nat :=
  (`|((a%:Z * v.1 + b%:Z * w.1) %% ra)%Z|%N, `|((a%:Z * v.2 + b%:Z * w.2) %% rb)%Z|%N).
(* quantum.py:611-628: is_valid_basis; len(self) // 2 is the number of plaquettes *)
Definition is_valid_basis (v w : vec2) : bool :=
  let reached := [seq point v w a b | a <- iota 0 (get_order v), b <- iota 0 (get_order w)] in
  (get_order v * get_order w == ra * rb)%N && all (fun p => p \in reached) [seq (x, y) | x <- iota 0 ra, y <- iota 0 rb].

(* quantum.py:582-600: modular_inverse; None is ValueError *)
Definition modular_inverse (v w : vec2) (aa bb : int) : option (nat * nat) :=
  let target := (`|(aa %% ra)%Z|%N, `|(bb %% rb)%Z|%N) in
  ohead [seq c <- [seq (x, y) | x <- iota 0 (get_order v), y <- iota 0 (get_order w)] | point v w c.1 c.2 == target].

(* quantum.py:310-313: exponents in (-order/2, order/2] *)
Definition canon_exp (order : nat) (e : int) : int :=
  let r := (e %% order)%Z in if (order%:Z < 2 * r) then r - order%:Z else r.
(* quantum.py:548-580: the exponents of a monomial in the new basis; None is the ValueError of modular_inverse *)
Definition new_exponents (g h : vec2) (e : vec2) : option vec2 :=
  match modular_inverse g h 1 0, modular_inverse g h 0 1 with
  | Some x, Some y =>
      Some (canon_exp (get_order g) (e.1 * x.1%:Z + e.2 * y.1%:Z), canon_exp (get_order h) (e.1 * x.2%:Z + e.2 * y.2%:Z))
  | _, _ => None
  end.

(* ====================================================================== specification *)
(* two points of the plane are the same point of the torus *)
Definition same (p q : vec2) : Prop := (p.1 = q.1 %[mod ra])%Z /\ (p.2 = q.2 %[mod rb])%Z.
Definition comb (a b : int) (v w : vec2) : vec2 := (a * v.1 + b * w.1, a * v.2 + b * w.2).

(* ============================================================================= proofs *)
Hypotheses (ra0 : (0 < ra)%N) (rb0 : (0 < rb)%N).

Lemma period_gt0 r v : (0 < r)%N -> (0 < period r v)%N.
Proof. by move=> r0; rewrite /period divn_gt0 ?gcdn_gt0 ?r0 ?orbT // dvdn_leq // dvdn_gcdr. Qed.

Lemma periodP r v (k : int) : (0 < r)%N -> (r %| k * v)%Z = (period r v %| k)%Z.
Proof.
move=> r0; rewrite !dvdzE abszM /= /period; set g := gcdn _ _; set m := `|v|%N.
have g0 : (0 < g)%N by rewrite gcdn_gt0 r0 orbT.
have er : (r = r %/ g * g)%N by rewrite divnK // dvdn_gcdr.
have em : (m = m %/ g * g)%N by rewrite divnK // dvdn_gcdl.
have co : coprime (r %/ g) (m %/ g).
  rewrite /coprime -(eqn_pmul2r g0) mul1n muln_gcdl -er -em gcdnC; exact/eqP.
by rewrite {1}er em mulnA dvdn_pmul2r // Gauss_dvdl.
Qed.

Lemma same_mod0 (r : nat) (x : int) : (x = 0 %[mod r])%Z <-> (r %| x)%Z.
Proof. by rewrite mod0z; split=> [h | h]; [apply/dvdz_mod0P | apply/dvdz_mod0P]. Qed.

Lemma get_orderE v : get_order v = lcmn (period ra v.1) (period rb v.2).
Proof. by []. Qed.

Theorem get_order_gt0 v : (0 < get_order v)%N.
Proof. by rewrite get_orderE lcmn_gt0 !period_gt0. Qed.

Theorem get_orderP v (k : int) : same (k * v.1, k * v.2) (0, 0) <-> (get_order v %| k)%Z.
Proof.
rewrite get_orderE /same /= !same_mod0 !periodP // !dvdzE /= dvdn_lcm; split=> [[-> ->] // | /andP [-> ->] //].
Qed.

Lemma absz_mod (r : nat) (x y : int) : (0 < r)%N -> `|(x %% r)%Z|%N = `|(y %% r)%Z|%N <-> (x = y %[mod r])%Z.
Proof.
move=> r0; have nz : (r%:Z != 0) by rewrite -lt0n.
split=> [h | -> //]; have := modz_ge0 x nz; have := modz_ge0 y nz => hy hx.
by rewrite -(gez0_abs hx) -(gez0_abs hy) h.
Qed.

Lemma pointP v w a b v' w' a' b' : point v w a b = point v' w' a' b' <-> same (comb a%:Z b%:Z v w) (comb a'%:Z b'%:Z v' w').
Proof.
rewrite /same /=; split=> [[/(absz_mod _ _ ra0) h1 /(absz_mod _ _ rb0) h2] // | [h1 h2]].
by rewrite /point; congr pair; apply/absz_mod.
Qed.

Lemma point_target v w a b aa bb : (point v w a b == (`|(aa %% ra)%Z|%N, `|(bb %% rb)%Z|%N)) = true <->
  same (comb a%:Z b%:Z v w) (aa, bb).
Proof.
split=> [/eqP [/(absz_mod _ _ ra0) h1 /(absz_mod _ _ rb0) h2] // | [h1 h2]].
by apply/eqP; congr pair; apply/absz_mod.
Qed.

Lemma uniq_map_inj (T S : eqType) (f : T -> S) s : uniq (map f s) -> {in s &, injective f}.
Proof.
elim: s => //= x s IH /andP [nx us] a b; rewrite !inE => /orP [/eqP -> | ha] /orP [/eqP -> | hb] e //.
- by case/negP: nx; rewrite e; apply: map_f.
- by case/negP: nx; rewrite -e; apply: map_f.
exact: IH.
Qed.

Lemma pairsE (T : Type) (f : nat -> nat -> T) m n :
  [seq f a b | a <- iota 0 m, b <- iota 0 n] = [seq f c.1 c.2 | c <- [seq (a, b) | a <- iota 0 m, b <- iota 0 n]].
Proof. by rewrite map_allpairs. Qed.

Lemma mem_pairs m n c : (c \in [seq (a, b) | a <- iota 0 m, b <- iota 0 n]) = (c.1 < m)%N && (c.2 < n)%N.
Proof.
apply/allpairsP/andP => [[[a b] /= [ha hb ->]] | [h1 h2]]; first by rewrite !mem_iota in ha hb.
by case: c h1 h2 => a b /= h1 h2; exists (a, b); rewrite !mem_iota /= !add0n.
Qed.

Lemma uniq_pairs m n : uniq [seq (a, b) | a <- iota 0 m, b <- iota 0 n].
Proof. by apply: allpairs_uniq; rewrite ?iota_uniq // => -[a b] [c d]. Qed.

Lemma size_pairs m n : size [seq (a, b) | a <- iota 0 m, b <- iota 0 n] = (m * n)%N.
Proof. by rewrite size_allpairs !size_iota. Qed.

Lemma torus_nat x y : (x < ra)%N -> (y < rb)%N -> (x, y) = (`|(x%:Z %% ra)%Z|%N, `|(y%:Z %% rb)%Z|%N).
Proof. by move=> hx hy; rewrite !modz_nat !modn_small. Qed.

Lemma point_lt v w a b : ((point v w a b).1 < ra)%N && ((point v w a b).2 < rb)%N.
Proof.
rewrite /point /=; apply/andP; split.
  by rewrite -ltz_nat gez0_abs ?modz_ge0 -?lt0n // ltz_pmod.
by rewrite -ltz_nat gez0_abs ?modz_ge0 -?lt0n // ltz_pmod.
Qed.

(* a valid basis reaches every point of the torus with exactly one pair of coefficients *)
Theorem is_valid_basisP v w : is_valid_basis v w <->
  forall p : vec2, exists c : nat * nat,
    [/\ (c.1 < get_order v)%N, (c.2 < get_order w)%N, same (comb c.1%:Z c.2%:Z v w) p &
     forall c' : nat * nat, (c'.1 < get_order v)%N -> (c'.2 < get_order w)%N -> same (comb c'.1%:Z c'.2%:Z v w) p -> c' = c].
Proof.
pose P := [seq (a, b) | a <- iota 0 (get_order v), b <- iota 0 (get_order w)].
pose T := [seq (x, y) | x <- iota 0 ra, y <- iota 0 rb].
pose f (c : nat * nat) := point v w c.1 c.2.
rewrite /is_valid_basis pairsE -/P -/T; split=> [/andP [/eqP e /allP sub] p | h].
  have sz : (size (map f P) <= size T)%N by rewrite size_map !size_pairs e.
  have uP : uniq (map f P) by apply: (leq_size_uniq (uniq_pairs ra rb) sub sz).
  have pT : (`|(p.1 %% ra)%Z|%N, `|(p.2 %% rb)%Z|%N) \in T.
    by rewrite mem_pairs -!ltz_nat !gez0_abs ?modz_ge0 -?lt0n // !ltz_pmod.
  have /mapP [c cP ec] := sub _ pT; exists c; move: (cP); rewrite mem_pairs => /andP [h1 h2].
  have hc : same (comb c.1%:Z c.2%:Z v w) (p.1, p.2) by apply/point_target/eqP.
  have hcp : same (comb c.1%:Z c.2%:Z v w) p by case: (p) hc.
  split=> // c' h1' h2' hs.
  have c'P : c' \in P by rewrite mem_pairs h1' h2'.
  apply: (uniq_map_inj uP) => //; rewrite /f -ec; apply/eqP/point_target; by case: (p) hs.
have sub : {subset T <= map f P}.
  move=> [x y]; rewrite mem_pairs /= => /andP [hx hy].
  have [c [h1 h2 hs _]] := h (x%:Z, y%:Z); apply/mapP; exists c; first by rewrite mem_pairs h1.
  by rewrite (torus_nat hx hy); apply/esym/eqP/point_target.
have inj : {in P &, injective f}.
  move=> c c'; rewrite !mem_pairs => /andP [h1 h2] /andP [h1' h2'] /pointP hs.
  have [d [_ _ _ hd]] := h (comb c.1%:Z c.2%:Z v w).
  have -> : c = d by apply: hd h1 h2 _; split.
  by apply/esym/(hd _ h1' h2'); have [e1 e2] := hs; split; [exact: esym e1 | exact: esym e2].
have uP : uniq (map f P) by rewrite map_inj_in_uniq // uniq_pairs.
have sub' : {subset map f P <= T} by move=> p /mapP [c _ ->]; rewrite mem_pairs point_lt.
apply/andP; split; last exact/allP.
have l1 := uniq_leq_size uP sub'; have l2 := uniq_leq_size (uniq_pairs ra rb) sub.
by rewrite eqn_leq -!size_pairs -/P -/T -[size P](size_map f) l1 l2.
Qed.

(* modular_inverse finds coefficients whenever there are any *)
Theorem modular_inverse_some v w aa bb c : modular_inverse v w aa bb = Some c ->
  [/\ (c.1 < get_order v)%N, (c.2 < get_order w)%N & same (comb c.1%:Z c.2%:Z v w) (aa, bb)].
Proof.
rewrite /modular_inverse; set l := [seq _ <- _ | _] => h.
have : c \in l by case: (l) h => //= x s [->]; rewrite mem_head.
by rewrite mem_filter mem_pairs => /andP [/point_target hs /andP [h1 h2]].
Qed.

Lemma comb_mod v w (x y : int) : same (comb (x %% get_order v)%Z (y %% get_order w)%Z v w) (comb x y v w).
Proof.
have key u (z : int) : same ((z %% get_order u)%Z * u.1, (z %% get_order u)%Z * u.2) (z * u.1, z * u.2).
  have [h1 h2] : same ((z %/ get_order u)%Z * get_order u * u.1, (z %/ get_order u)%Z * get_order u * u.2) (0, 0).
    by apply: (proj2 (get_orderP _ _)); apply: dvdz_mull.
  rewrite /same /= in h1 h2 *; have ez := divz_eq z (get_order u).
  set m := (z %% get_order u)%Z in ez *; set d := (z %/ get_order u)%Z in ez h1 h2.
  by rewrite ez !mulrDl; split; [rewrite -[RHS]modzDml h1 | rewrite -[RHS]modzDml h2]; rewrite mod0z add0r.
have [a1 a2] := key v x; have [b1 b2] := key w y; rewrite /same /= in a1 a2 b1 b2 *.
by rewrite -modzDm a1 b1 modzDm -[in X in _ /\ X]modzDm a2 b2 modzDm.
Qed.

Theorem modular_inverse_none v w aa bb : modular_inverse v w aa bb = None ->
  forall x y : int, ~ same (comb x y v w) (aa, bb).
Proof.
rewrite /modular_inverse => h x y hs.
have nz u : (get_order u)%:Z != 0 by rewrite -lt0n get_order_gt0.
pose c := (`|(x %% get_order v)%Z|%N, `|(y %% get_order w)%Z|%N).
have lt : (c.1 < get_order v)%N && (c.2 < get_order w)%N.
  by rewrite /= -!ltz_nat !gez0_abs ?modz_ge0 // !ltz_pmod // ltz_nat get_order_gt0.
have hc : same (comb c.1%:Z c.2%:Z v w) (aa, bb).
  have [e1 e2] := comb_mod v w x y; have [f1 f2] := hs.
  by rewrite /c /= !gez0_abs ?modz_ge0 //; split; rewrite ?e1 ?e2.
suff : c \in [seq c <- [seq (x, y) | x <- iota 0 (get_order v), y <- iota 0 (get_order w)] |
             point v w c.1 c.2 == (`|(aa %% ra)%Z|%N, `|(bb %% rb)%Z|%N)] by case: (filter _ _) h.
by rewrite mem_filter mem_pairs lt andbT; apply/point_target.
Qed.

Lemma canon_expP (o : nat) (e : int) : (0 < o)%N ->
  [/\ (canon_exp o e = e %[mod o])%Z, - o%:Z < 2%:Z * canon_exp o e & 2%:Z * canon_exp o e <= o%:Z].
Proof.
move=> o0; rewrite /canon_exp; have nz : o%:Z != 0 by rewrite -lt0n.
have := modz_ge0 e nz; have := ltz_pmod e (o0 : 0 < o%:Z); set r := (e %% o)%Z => h1 h2.
have er : (r = e %[mod o])%Z by rewrite modz_mod.
case: ifP => h; split; rewrite ?er //.
- have e0 := modzMDl (- 1) r o; rewrite mulN1r addrC in e0.
  by rewrite e0 modz_mod.
- by move: h h1 h2; clear; lia.
- by move: h h1 h2; clear; lia.
- by move: h h1 h2 o0; clear; lia.
by move: h h1 h2; clear; lia.
Qed.

Lemma same_trans p q r : same p q -> same q r -> same p r.
Proof. by move=> [a b] [c d]; split; rewrite ?a ?b. Qed.

(* a monomial keeps its meaning when it is written in a new basis *)
Theorem new_exponents_ok g h e e' : new_exponents g h e = Some e' ->
  [/\ same (comb e'.1 e'.2 g h) e,
   - (get_order g)%:Z < 2%:Z * e'.1 <= (get_order g)%:Z & - (get_order h)%:Z < 2%:Z * e'.2 <= (get_order h)%:Z].
Proof.
rewrite /new_exponents.
case ex: (modular_inverse g h 1 0) => [x|//]; case ey: (modular_inverse g h 0 1) => [y|//] [<-] /=.
have [_ _ [x1 x2]] := modular_inverse_some ex; have [_ _ [y1 y2]] := modular_inverse_some ey.
set u := e.1 * _ + _; set v := e.1 * _ + _.
have [cu u1 u2] := canon_expP u (get_order_gt0 g); have [cv v1 v2] := canon_expP v (get_order_gt0 h).
split; rewrite ?u1 ?u2 ?v1 ?v2 //.
apply: same_trans (_ : same (comb u v g h) e).
  apply: same_trans (_ : same (comb (u %% get_order g)%Z (v %% get_order h)%Z g h) _); last exact: comb_mod.
  have [a b] := comb_mod g h (canon_exp (get_order g) u) (canon_exp (get_order h) v).
  by rewrite cu cv in a b; split; rewrite -?a -?b.
rewrite /same /= in x1 x2 y1 y2 *; split.
  have -> : u * g.1 + v * h.1 = e.1 * (x.1%:Z * g.1 + x.2%:Z * h.1) + e.2 * (y.1%:Z * g.1 + y.2%:Z * h.1) by rewrite /u /v; ring.
  by rewrite -modzDm -modzMmr x1 -[X in (_ + X)%R]modzMmr y1 modzMmr modzMmr mulr1 mulr0 modzDm addr0.
have -> : u * g.2 + v * h.2 = e.1 * (x.1%:Z * g.2 + x.2%:Z * h.2) + e.2 * (y.1%:Z * g.2 + y.2%:Z * h.2) by rewrite /u /v; ring.
by rewrite -modzDm -modzMmr x2 -[X in (_ + X)%R]modzMmr y2 modzMmr modzMmr mulr1 mulr0 modzDm add0r.
Qed.

(* a valid basis always has the two inverses *)
Theorem new_exponents_total g h e : is_valid_basis g h -> new_exponents g h e <> None.
Proof.
move=> /is_valid_basisP ok; rewrite /new_exponents.
have tot a b : modular_inverse g h a b <> None.
  by move=> /modular_inverse_none no; have [c [_ _ hc _]] := ok (a, b); exact: (no _ _ hc).
by case: (modular_inverse g h 1 0) (tot 1 0) => [x|] // _; case: (modular_inverse g h 0 1) (tot 0 1).
Qed.
End Basis.
