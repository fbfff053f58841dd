(* Group algebras: model of qldpc/abstract.py:421-700 (GroupRing, RingMember). *)
From mathcomp Require Import all_ssreflect all_algebra zify.
From Verif Require Import LinAlg RowReduce Kron Classical ClassicalProofs ClassicalProofs2 Symplectic Quantum QuantumProofs
  QuantumLogs QuantumStab CssLogs PermGroup Abelian.
Set Implicit Arguments.
Unset Strict Implicit.
Unset Printing Implicit Defensive.
Import GRing.Theory.
Local Open Scope ring_scope.

(* ============================================================================== model *)
Section Model.
Variable F : fieldType.

(* abstract.py:523-548: a RingMember is a dictionary from group members to coefficients, in insertion order.
   Simplification: the ring (group and field) is a parameter of the functions that need it. *)
Definition rmem := seq (perm * F).
(* self._vec.get(member, 0), and self._vec[member] of the defaultdict *)
Definition coef (x : rmem) (g : perm) : F := nth 0 [seq t.2 | t <- x] (index g [seq t.1 | t <- x]).
(* self._vec[member] += value *)
Fixpoint dadd (x : rmem) (g : perm) (v : F) : rmem :=
  if x is (h, w) :: x' then if h == g then (h, w + v) :: x' else (h, w) :: dadd x' g v else [:: (g, 0 + v)].
(* self._vec[member] = value *)
Fixpoint dset (x : rmem) (g : perm) (v : F) : rmem :=
  if x is (h, w) :: x' then if h == g then (h, v) :: x' else (h, w) :: dset x' g v else [:: (g, v)].
Definition dadds (x : rmem) (ts : seq (perm * F)) : rmem := foldl (fun a t => dadd a t.1 t.2) x ts.
Definition dsets (x : rmem) (ts : seq (perm * F)) : rmem := foldl (fun a t => dset a t.1 t.2) x ts.

(* abstract.py:535-548: RingMember(ring, *terms) *)
Definition rm_make (ts : seq (perm * F)) : rmem := dadds [::] ts.
(* abstract.py:550-556: __eq__ of two members of the same ring *)
Definition rm_eq (x y : rmem) : bool :=
  all (fun t => coef x t.1 == coef y t.1) x && all (fun t => coef x t.1 == coef y t.1) y.
(* abstract.py:558-559: __bool__ *)
Definition rm_bool (x : rmem) : bool := has (fun t => t.2 != 0) x.
(* abstract.py:481-489: zero, one *)
Definition rm_zero : rmem := [::].
Definition rm_one (n : nat) : rmem := rm_make [:: (pid n, 1)].
(* abstract.py:625-630: copy *)
Definition rm_copy (x : rmem) : rmem := dsets [::] x.
(* abstract.py:565-582: self + other for a RingMember, and for a GroupMember *)
Definition rm_add (x y : rmem) : rmem := dadds (rm_copy x) y.
Definition rm_addg (x : rmem) (g : perm) : rmem := dadd (rm_copy x) g 1.
(* abstract.py:590-614: self * other for an integer, a GroupMember and a RingMember; other * self for a GroupMember *)
Definition rm_scale (x : rmem) (c : int) : rmem := dsets [::] [seq (t.1, t.2 * c%:~R) | t <- x].
Definition rm_mulg (x : rmem) (g : perm) : rmem := dsets [::] [seq (pmul t.1 g, t.2) | t <- x].
Definition rm_gmul (g : perm) (x : rmem) : rmem := dsets [::] [seq (pmul g t.1, t.2) | t <- x].
Definition rm_mul (x y : rmem) : rmem := dadds [::] [seq (pmul t.1 u.1, t.2 * u.2) | t <- x, u <- y].
(* abstract.py:584-585, 618-622: self - other for a RingMember, -self, self ** power *)
Definition rm_neg (x : rmem) : rmem := rm_scale x (-1).
Definition rm_sub (x y : rmem) : rmem := rm_add x (rm_scale y (-1)).
Definition rm_pow (n : nat) (x : rmem) (k : nat) : rmem := foldl rm_mul (rm_one n) (nseq k x).
(* abstract.py:661-671: T *)
Definition rm_T (x : rmem) : rmem := dsets [::] [seq (pinv t.1, t.2) | t <- x].
(* abstract.py:647-659: lift and regular_lift, for a representation L by matrices of size d *)
Definition rm_lift (d : nat) (L : perm -> mat F) (x : rmem) : mat F :=
  foldl (@madd F) (zerol F d d) [seq mscale t.2 (L t.1) | t <- x & t.2 != 0].
(* abstract.py:688-700: from_vector, to_vector *)
Definition from_vector (G : group) (v : seq F) : rmem := rm_make [seq (t.2, t.1) | t <- zip v G & t.1 != 0].
Definition to_vector (G : group) (x : rmem) : seq F :=
  foldl (fun v t => set_nth 0 v (gindex G t.1) t.2) (nseq (size G) 0) x.
(* abstract.py:673-686: inverse.  External: np.linalg.inv is the Gauss-Jordan inverse of galois (Quantum.inv_mat), and a
   LinAlgError is None *)
Definition rm_inverse (G : group) (x : rmem) : option rmem :=
  match [seq t <- x | t.2 != 0] with
  | [::] => None
  | [:: t] => Some (rm_make [:: (pinv t.1, t.2^-1)])
  | _ => if inv_mat (size G) (rm_lift (size G) (regular_lift F G) x) is Some B
         then Some (from_vector G [seq ent B i 0 | i <- iota 0 (size B)]) else None
  end.
End Model.

(* ============================================================================= proofs *)
Section Dict.
Variable F : fieldType.
Notation rmem := (rmem F).
Implicit Types x y z ts : rmem.
Notation keys x := [seq t.1 | t <- x].

Lemma coef_nil g : coef ([::] : rmem) g = 0. Proof. by []. Qed.
Lemma coef_cons h w x g : coef ((h, w) :: x) g = if h == g then w else coef x g.
Proof. by rewrite /coef /=; case: eqP. Qed.
Lemma coef_out x g : g \notin keys x -> coef x g = 0.
Proof. by elim: x => // -[h w] x IH; rewrite /= in_cons negb_or eq_sym coef_cons => /andP [/negbTE -> /IH]. Qed.
Lemma coef_in x t : uniq (keys x) -> t \in x -> coef x t.1 = t.2.
Proof.
elim: x => // -[h w] x IH /= /andP [nh ux]; rewrite in_cons coef_cons => /orP [/eqP -> | tx] /=; first by rewrite eqxx.
by case: eqP => [e | _]; [move: nh; rewrite e (map_f (fun t => t.1) tx) | apply: IH].
Qed.

Lemma keys_dadd x g v : keys (dadd x g v) = if g \in keys x then keys x else rcons (keys x) g.
Proof.
elim: x => // -[h w] x IH /=; rewrite in_cons [g == h]eq_sym; case: (h == g) => //=; rewrite IH.
by case: (g \in _).
Qed.
Lemma coef_dadd x g v h : coef (dadd x g v) h = coef x h + (if g == h then v else 0).
Proof.
elim: x => [|[k w] x IH] /=; first by rewrite coef_cons /= coef_nil; case: eqP; rewrite ?addr0 ?add0r.
case: eqP => [-> | ne]; rewrite !coef_cons ?IH; first by case: eqP; rewrite ?addr0.
by case: eqP => // e; case: eqP => [e'|]; [case: ne; rewrite e | rewrite addr0].
Qed.
Lemma keys_dset x g v : keys (dset x g v) = if g \in keys x then keys x else rcons (keys x) g.
Proof.
elim: x => // -[h w] x IH /=; rewrite in_cons [g == h]eq_sym; case: (h == g) => //=; rewrite IH.
by case: (g \in _).
Qed.
Lemma coef_dset x g v h : coef (dset x g v) h = if g == h then v else coef x h.
Proof.
elim: x => [|[k w] x IH] /=; first by rewrite coef_cons.
case: eqP => [-> | ne]; rewrite !coef_cons ?IH; first by case: eqP.
by case: eqP => // e; case: eqP => // e'; case: ne; rewrite e e'.
Qed.

Lemma uniq_add (T : eqType) (s : seq T) g : uniq s -> uniq (if g \in s then s else rcons s g).
Proof. by case: ifP => // h u; rewrite rcons_uniq h. Qed.

Lemma dadds_uniq x ts : uniq (keys x) -> uniq (keys (dadds x ts)).
Proof. by elim: ts x => //= t ts IH x ux; apply: IH; rewrite keys_dadd uniq_add. Qed.
Lemma dsets_uniq x ts : uniq (keys x) -> uniq (keys (dsets x ts)).
Proof. by elim: ts x => //= t ts IH x ux; apply: IH; rewrite keys_dset uniq_add. Qed.
Lemma dadds_keys x ts (P : pred perm) : all P (keys x) -> all P (keys ts) -> all P (keys (dadds x ts)).
Proof.
elim: ts x => //= t ts IH x hx /andP [ht hts]; apply: IH => //; rewrite keys_dadd.
by case: ifP => // _; rewrite all_rcons ht.
Qed.
Lemma dsets_keys x ts (P : pred perm) : all P (keys x) -> all P (keys ts) -> all P (keys (dsets x ts)).
Proof.
elim: ts x => //= t ts IH x hx /andP [ht hts]; apply: IH => //; rewrite keys_dset.
by case: ifP => // _; rewrite all_rcons ht.
Qed.

Lemma coef_dadds x ts h : coef (dadds x ts) h = coef x h + \sum_(t <- ts) (if t.1 == h then t.2 else 0).
Proof.
elim: ts x => [|t ts IH] x /=; first by rewrite big_nil addr0.
by rewrite IH coef_dadd big_cons addrA.
Qed.
(* dsets with pairwise different keys *)
Lemma coef_dsets x ts h : uniq (keys ts) -> coef (dsets x ts) h = if h \in keys ts then coef ts h else coef x h.
Proof.
elim: ts x => //= -[k v] ts IH x /= /andP [nk u]; rewrite IH // coef_dset in_cons coef_cons [h == k]eq_sym.
by case: (k =P h) => [e | _] //=; rewrite -e (negbTE nk).
Qed.
Lemma coef_dsets0 ts h : uniq (keys ts) -> coef (dsets [::] ts) h = coef ts h.
Proof. by move=> u; rewrite coef_dsets //; case: ifP => // /negbT /coef_out ->. Qed.

Lemma coefE x h : uniq (keys x) -> \sum_(t <- x) (if t.1 == h then t.2 else 0) = coef x h.
Proof.
elim: x => [|[k v] x IH] /=; first by rewrite big_nil.
move=> /andP [nk u]; rewrite big_cons coef_cons IH //=; case: eqP => [e | _]; last by rewrite add0r.
by rewrite coef_out ?addr0 // -e.
Qed.
End Dict.

Lemma mem_zip2 (S T : eqType) (u : S * T) (v : seq S) (G : seq T) : u \in zip v G -> u.2 \in G.
Proof.
elim: v G => [|a v IH] [|b G] //=; rewrite !in_cons => /orP [/eqP -> /= | /IH ->]; by rewrite ?eqxx ?orbT.
Qed.

Section Ring.
Variables (F : fieldType) (n : nat) (G : group).
Hypothesis gG : grp_ok n G.
Notation rmem := (rmem F).
Implicit Types x y z ts : rmem.
Notation keys x := [seq t.1 | t <- x].
Let vG p : p \in G -> valid n p. Proof. exact: (g_valid gG). Qed.

(* a member of the group algebra of G *)
Definition rm_ok (x : rmem) : bool := uniq (keys x) && all (mem G) (keys x).

Lemma rm_okP x t : rm_ok x -> t \in x -> t.1 \in G.
Proof. by case/andP => _ /allP h tx; apply: h; apply: map_f. Qed.
Lemma rm_ok_uniq x : rm_ok x -> uniq (keys x). Proof. by case/andP. Qed.

Lemma sum_dict (V : lmodType F) x (f : perm -> V) : rm_ok x ->
  \sum_(t <- x) t.2 *: f t.1 = \sum_(h <- G) coef x h *: f h.
Proof.
case/andP => u /allP k; transitivity (\sum_(h <- keys x) coef x h *: f h).
  by rewrite big_map big_seq [RHS]big_seq; apply: eq_bigr => t tx; rewrite coef_in.
rewrite [RHS](bigID (mem (keys x))) /= [X in _ = _ + X]big1_seq ?addr0; last first.
  by move=> h /andP [nh _]; rewrite coef_out ?scale0r.
rewrite -[RHS]big_filter; apply: perm_big; apply: uniq_perm => //; first by rewrite filter_uniq ?(g_uniq gG).
by move=> h; rewrite mem_filter /=; case hk: (h \in keys x) => //=; symmetry; apply: (k _ hk).
Qed.

Lemma sum_coef x (f : perm -> F) : rm_ok x -> \sum_(t <- x) t.2 * f t.1 = \sum_(h <- G) coef x h * f h.
Proof. exact: (@sum_dict (GRing.regular_lmodType F) x f). Qed.

(* ------------------------------------------------------------- closure and coefficients *)
Lemma ok_dadds x ts : rm_ok x -> all (mem G) (keys ts) -> rm_ok (dadds x ts).
Proof. by case/andP => u k kt; rewrite /rm_ok dadds_uniq ?dadds_keys. Qed.
Lemma ok_dsets x ts : rm_ok x -> all (mem G) (keys ts) -> rm_ok (dsets x ts).
Proof. by case/andP => u k kt; rewrite /rm_ok dsets_uniq ?dsets_keys. Qed.
Lemma ok_nil : rm_ok [::]. Proof. by []. Qed.
Lemma ok_keys x : rm_ok x -> all (mem G) (keys x). Proof. by case/andP. Qed.

Lemma coef_notin x g : rm_ok x -> g \notin G -> coef x g = 0.
Proof. by case/andP => _ /allP h ng; apply: coef_out; apply/negP => /h; apply/negP. Qed.

Lemma ok_make ts : all (mem G) (keys ts) -> rm_ok (rm_make ts). Proof. exact: ok_dadds. Qed.
Lemma coef_make ts h : coef (rm_make ts) h = \sum_(t <- ts) (if t.1 == h then t.2 else 0).
Proof. by rewrite coef_dadds coef_nil add0r. Qed.

Lemma ok_zero : rm_ok (rm_zero F). Proof. by []. Qed.
Lemma ok_one : rm_ok (rm_one F n). Proof. by rewrite ok_make //= andbT; apply: g_one. Qed.
Lemma coef_one h : coef (rm_one F n) h = (h == pid n)%:R.
Proof. by rewrite coef_make big_seq1 /= eq_sym; case: eqP. Qed.

Lemma ok_copy x : rm_ok x -> rm_ok (rm_copy x). Proof. by move=> ox; apply: ok_dsets; rewrite ?ok_keys. Qed.
Lemma coef_copy x h : rm_ok x -> coef (rm_copy x) h = coef x h.
Proof. by move=> ox; rewrite coef_dsets0 ?rm_ok_uniq. Qed.

Lemma ok_add x y : rm_ok x -> rm_ok y -> rm_ok (rm_add x y).
Proof. by move=> ox oy; apply: ok_dadds; rewrite ?ok_copy ?ok_keys. Qed.
Lemma coef_add x y h : rm_ok x -> rm_ok y -> coef (rm_add x y) h = coef x h + coef y h.
Proof. by move=> ox oy; rewrite coef_dadds coef_copy // coefE // rm_ok_uniq. Qed.

Lemma ok_addg x g : rm_ok x -> g \in G -> rm_ok (rm_addg x g).
Proof. by move=> ox hg; apply: (@ok_dadds (rm_copy x) [:: (g, 1)]); rewrite ?ok_copy //= andbT. Qed.
Lemma coef_addg x g h : rm_ok x -> coef (rm_addg x g) h = coef x h + (g == h)%:R.
Proof. by move=> ox; rewrite coef_dadd coef_copy //; case: eqP. Qed.

Lemma coef_mapk x (f : perm -> perm) (f' : perm -> perm) h : rm_ok x -> {in G, cancel f f'} -> (h \in G -> f' h \in G /\ f (f' h) = h) -> h \in G ->
  coef [seq (f t.1, t.2) | t <- x] h = coef x (f' h).
Proof.
move=> ox c inv hG; have [hG' e] := inv hG; elim: x ox => // -[k v] x IH /= ox.
have ox' : rm_ok x by move: ox; rewrite /rm_ok /= => /andP [/andP [_ ->] /andP [_ ->]].
have kG : k \in G by move: ox; rewrite /rm_ok /= => /andP [_ /andP []].
rewrite !coef_cons IH //; congr (if _ then _ else _); apply/eqP/eqP => [<- | ->] //; by rewrite c.
Qed.

Lemma uniq_mapk x (f : perm -> perm) : rm_ok x -> {in G &, injective f} -> uniq (keys [seq (f t.1, t.2) | t <- x]).
Proof.
move=> ox inj; rewrite -map_comp (_ : map _ x = map f (keys x)); last by rewrite -map_comp.
rewrite map_inj_in_uniq ?rm_ok_uniq // => a b /(allP (ok_keys ox)) aG /(allP (ok_keys ox)) bG; exact: inj.
Qed.

Lemma ok_T x : rm_ok x -> rm_ok (rm_T x).
Proof.
move=> ox; apply: ok_dsets => //; apply/allP => g /mapP [t /mapP [u ux ->] ->] /=.
by apply: (g_inv gG); apply: (rm_okP ox).
Qed.
Lemma coef_T x h : rm_ok x -> h \in G -> coef (rm_T x) h = coef x (pinv h).
Proof.
move=> ox hG; have c : {in G, cancel pinv pinv} by move=> g gg; apply: (@pinvK n); apply: vG.
rewrite coef_dsets0; first by apply: coef_mapk => // _; rewrite c // (g_inv gG).
by apply: uniq_mapk => // a b aG bG /(congr1 pinv); rewrite !c.
Qed.

Lemma ok_gmul g x : g \in G -> rm_ok x -> rm_ok (rm_gmul g x).
Proof.
move=> hg ox; apply: ok_dsets => //; apply/allP => k /mapP [t /mapP [u ux ->] ->] /=.
by apply: (g_mul gG) => //; apply: (rm_okP ox).
Qed.
Lemma coef_gmul g x h : g \in G -> rm_ok x -> h \in G -> coef (rm_gmul g x) h = coef x (pmul (pinv g) h).
Proof.
move=> hg ox hG; have c : {in G, cancel (pmul g) (pmul (pinv g))} by move=> k kG; apply: (@pmulKp n); apply: vG.
rewrite coef_dsets0; first apply: coef_mapk => // _; first by rewrite (@pmulKVp n) ?vG // (g_mul gG) // (g_inv gG).
by apply: uniq_mapk => // a b aG bG /(congr1 (pmul (pinv g))); rewrite !c.
Qed.

Lemma ok_mulg x g : g \in G -> rm_ok x -> rm_ok (rm_mulg x g).
Proof.
move=> hg ox; apply: ok_dsets => //; apply/allP => k /mapP [t /mapP [u ux ->] ->] /=.
by apply: (g_mul gG) => //; apply: (rm_okP ox).
Qed.
Lemma coef_mulg x g h : g \in G -> rm_ok x -> h \in G -> coef (rm_mulg x g) h = coef x (pmul h (pinv g)).
Proof.
move=> hg ox hG; have c : {in G, cancel (pmul^~ g) (pmul^~ (pinv g))} by move=> k kG; apply: (@pmulpK n); apply: vG.
rewrite coef_dsets0; first apply: (@coef_mapk x (pmul^~ g) (pmul^~ (pinv g))) => // _.
  by rewrite (@pmulpKV n) ?vG // (g_mul gG) // (g_inv gG).
by apply: (@uniq_mapk x (pmul^~ g)) => // a b aG bG /(congr1 (pmul^~ (pinv g))); rewrite /= !c.
Qed.

Lemma keys_scale x c : keys [seq (t.1, t.2 * c%:~R) | t <- x] = keys x.
Proof. by rewrite -map_comp; apply: eq_map. Qed.
Lemma ok_scale x c : rm_ok x -> rm_ok (rm_scale x c).
Proof. by move=> ox; apply: ok_dsets; rewrite ?keys_scale ?ok_keys. Qed.
Lemma coef_scale x c h : rm_ok x -> coef (rm_scale x c) h = coef x h * c%:~R.
Proof.
move=> ox; rewrite coef_dsets0 ?keys_scale ?rm_ok_uniq //; elim: x {ox} => [|[k v] x IH] /=; first by rewrite !coef_nil mul0r.
by rewrite !coef_cons IH; case: eqP.
Qed.

Lemma ok_neg x : rm_ok x -> rm_ok (rm_neg x). Proof. exact: ok_scale. Qed.
Lemma coef_neg x h : rm_ok x -> coef (rm_neg x) h = - coef x h.
Proof. by move=> ox; rewrite coef_scale // mulrN1z mulrN1. Qed.
Lemma ok_sub x y : rm_ok x -> rm_ok y -> rm_ok (rm_sub x y).
Proof. by move=> ox oy; apply: ok_add => //; apply: ok_scale. Qed.
Lemma coef_sub x y h : rm_ok x -> rm_ok y -> coef (rm_sub x y) h = coef x h - coef y h.
Proof. by move=> ox oy; rewrite coef_add ?ok_scale // coef_scale // mulrN1z mulrN1. Qed.

Lemma ok_mul x y : rm_ok x -> rm_ok y -> rm_ok (rm_mul x y).
Proof.
move=> ox oy; apply: ok_dadds => //; apply/allP => k /mapP [t /allpairsPdep [u [w [ux wy ->]]] ->] /=.
by apply: (g_mul gG); [apply: (rm_okP ox) | apply: (rm_okP oy)].
Qed.
(* the product of the group algebra *)
Lemma coef_mul x y h : rm_ok x -> rm_ok y -> h \in G ->
  coef (rm_mul x y) h = \sum_(g <- G) coef x g * coef y (pmul (pinv g) h).
Proof.
move=> ox oy hG; rewrite coef_make big_allpairs_dep /=.
rewrite -(sum_coef (fun g => coef y (pmul (pinv g) h)) ox) big_seq [RHS]big_seq; apply: eq_bigr => t tx.
have tG := rm_okP ox tx; rewrite -(coefE _ (rm_ok_uniq oy)) mulr_sumr big_seq [RHS]big_seq; apply: eq_bigr => u uy.
rewrite (pmul_eqV (vG tG) (vG (rm_okP oy uy)) (vG hG)); by case: eqP; rewrite ?mulr0.
Qed.

(* equality *)
Lemma rm_eqP x y : rm_ok x -> rm_ok y -> reflect (forall g, g \in G -> coef x g = coef y g) (rm_eq x y).
Proof.
move=> ox oy; apply: (iffP andP) => [[/allP h1 /allP h2] g gg | h].
  case: (boolP (g \in keys x)) => [/mapP [t tx ->] | n1]; first by apply/eqP/h1.
  case: (boolP (g \in keys y)) => [/mapP [t tx ->] | n2]; first by apply/eqP/h2.
  by rewrite !coef_out.
by split; apply/allP => t tx; apply/eqP/h; [apply: (rm_okP ox) | apply: (rm_okP oy)].
Qed.
Lemma rm_boolP x : rm_ok x -> reflect (exists2 g, g \in G & coef x g != 0) (rm_bool x).
Proof.
move=> ox; apply: (iffP hasP) => [[t tx nz] | [g gg nz]].
  by exists t.1; rewrite ?coef_in ?rm_ok_uniq ?(rm_okP ox).
case: (boolP (g \in keys x)) => [/mapP [t tx e] | n1]; last by rewrite coef_out ?eqxx in nz.
by exists t => //; rewrite -(coef_in (rm_ok_uniq ox) tx) -e.
Qed.

Lemma perm_shift g : g \in G -> perm_eq [seq pmul g h | h <- G] G.
Proof.
move=> gg; apply: uniq_perm; rewrite ?(g_uniq gG) //.
  rewrite map_inj_in_uniq ?(g_uniq gG) // => a b aG bG /(congr1 (pmul (pinv g))).
  by rewrite !(@pmulKp n) ?vG.
move=> h; apply/mapP/idP => [[a aG ->] | hG]; first exact: (g_mul gG).
by exists (pmul (pinv g) h); rewrite ?(g_mul gG) ?(g_inv gG) // (@pmulKVp n) ?vG.
Qed.
Lemma perm_inv : perm_eq [seq pinv h | h <- G] G.
Proof.
have c : {in G, cancel pinv pinv} by move=> g gg; apply: (@pinvK n); apply: vG.
apply: uniq_perm; rewrite ?(g_uniq gG) //.
  by rewrite map_inj_in_uniq ?(g_uniq gG) // => a b aG bG /(congr1 pinv); rewrite !c.
move=> h; apply/mapP/idP => [[a aG ->] | hG]; first exact: (g_inv gG).
by exists (pinv h); rewrite ?(g_inv gG) // c.
Qed.

(* ---------------------------------------------------------------------------- lifts *)
Section Lift.
Variables (d : nat) (L : perm -> mat F).
Hypothesis rep : is_rep n d G L.

Lemma L_wf p : p \in G -> size (L p) = d /\ wf d (L p). Proof. by case: rep => h _ _ _; apply: h. Qed.

Lemma lift_fold (ts : seq (perm * F)) A : size A = d -> wf d A -> all (mem G) (keys ts) ->
  let B := foldl (@madd F) A [seq mscale t.2 (L t.1) | t <- ts] in
  [/\ size B = d, wf d B & mx d d B = mx d d A + \sum_(t <- ts) t.2 *: mx d d (L t.1)].
Proof.
elim: ts A => [|t ts IH] A sA wA /=; first by rewrite big_nil addr0.
case/andP => tG tsG; have [sL wL] := L_wf tG.
have s1 : size (mscale t.2 (L t.1)) = d by rewrite size_map.
have w1 : wf d (mscale t.2 (L t.1)) by apply: wf_mscale.
have s2 : size (madd A (mscale t.2 (L t.1))) = d by rewrite size_madd ?sA ?s1.
have w2 : wf d (madd A (mscale t.2 (L t.1))) by apply: wf_madd.
have [h1 h2 h3] := IH _ s2 w2 tsG; split=> //.
by rewrite h3 (mx_madd _ wA w1) ?sA ?s1 // mx_mscale big_cons addrA.
Qed.

Lemma lift_ok x : rm_ok x -> [/\ size (rm_lift d L x) = d, wf d (rm_lift d L x)
  & mx d d (rm_lift d L x) = \sum_(g <- G) coef x g *: mx d d (L g)].
Proof.
move=> ox; have h0 : size (zerol F d d) = d /\ wf d (zerol F d d) by rewrite size_nseq wf_zerol.
have k : all (mem G) (keys [seq t <- x | t.2 != 0]).
  by apply/allP => g /mapP [t]; rewrite mem_filter => /andP [_ tx] ->; apply: (rm_okP ox).
have [s w e] := lift_fold h0.1 h0.2 k; split=> //; rewrite e mx_zerol add0r -(sum_dict _ ox) big_filter big_mkcond.
by apply: eq_bigr => t _; case: eqP => //= ->; rewrite scale0r.
Qed.

Lemma mx_lift x : rm_ok x -> mx d d (rm_lift d L x) = \sum_(g <- G) coef x g *: mx d d (L g).
Proof. by case/lift_ok. Qed.

Lemma lift_ext x y : rm_ok x -> rm_ok y -> (forall g, g \in G -> coef x g = coef y g) ->
  mx d d (rm_lift d L x) = mx d d (rm_lift d L y).
Proof. by move=> ox oy h; rewrite !mx_lift // big_seq [RHS]big_seq; apply: eq_bigr => g gg; rewrite h. Qed.

Lemma lift_add x y : rm_ok x -> rm_ok y -> mx d d (rm_lift d L (rm_add x y)) = mx d d (rm_lift d L x) + mx d d (rm_lift d L y).
Proof. by move=> ox oy; rewrite !mx_lift ?ok_add // -big_split; apply: eq_bigr => g _; rewrite coef_add // scalerDl. Qed.
Lemma lift_scale x c : rm_ok x -> mx d d (rm_lift d L (rm_scale x c)) = c%:~R *: mx d d (rm_lift d L x).
Proof. by move=> ox; rewrite !mx_lift ?ok_scale // scaler_sumr; apply: eq_bigr => g _; rewrite coef_scale // scalerA mulrC. Qed.
Lemma lift_neg x : rm_ok x -> mx d d (rm_lift d L (rm_neg x)) = - mx d d (rm_lift d L x).
Proof. by move=> ox; rewrite lift_scale // mulrN1z scaleN1r. Qed.
Lemma lift_sub x y : rm_ok x -> rm_ok y -> mx d d (rm_lift d L (rm_sub x y)) = mx d d (rm_lift d L x) - mx d d (rm_lift d L y).
Proof. by move=> ox oy; rewrite lift_add ?ok_scale // -(lift_neg oy). Qed.
Lemma lift_one : mx d d (rm_lift d L (rm_one F n)) = 1%:M.
Proof.
have [_ _ e _] := is_repE rep; rewrite mx_lift ?ok_one // (bigD1_seq (pid n)) ?(g_one gG) ?(g_uniq gG) //= coef_one eqxx scale1r e.
by rewrite big1 ?addr0 // => g /negbTE ng; rewrite coef_one ng scale0r.
Qed.
Lemma lift_zero : mx d d (rm_lift d L (rm_zero F)) = 0.
Proof. by rewrite mx_lift // big1 // => g _; rewrite scale0r. Qed.

Lemma lift_mul x y : rm_ok x -> rm_ok y ->
  mx d d (rm_lift d L (rm_mul x y)) = mx d d (rm_lift d L x) *m mx d d (rm_lift d L y).
Proof.
move=> ox oy; have [_ hM _ _] := is_repE rep; have oxy := ok_mul ox oy; rewrite !mx_lift //.
transitivity (\sum_(h <- G) \sum_(g <- G) (coef x g * coef y (pmul (pinv g) h)) *: mx d d (L h)).
  by rewrite big_seq [RHS]big_seq; apply: eq_bigr => h hG; rewrite coef_mul // scaler_suml.
rewrite mulmx_suml exchange_big /= big_seq [RHS]big_seq; apply: eq_bigr => g gg.
rewrite mulmx_sumr -(perm_big _ (perm_shift gg)) big_map /= big_seq [RHS]big_seq; apply: eq_bigr => h hG.
by rewrite (@pmulKp n) ?vG // hM // -scalemxAl -scalemxAr scalerA.
Qed.

Lemma lift_T x : rm_ok x -> mx d d (rm_lift d L (rm_T x)) = (mx d d (rm_lift d L x))^T.
Proof.
move=> ox; have [_ _ _ hV] := is_repE rep; rewrite !mx_lift ?ok_T // linear_sum -(perm_big _ perm_inv) big_map /=.
rewrite big_seq [RHS]big_seq; apply: eq_bigr => g gg.
by rewrite coef_T ?(g_inv gG) // (@pinvK n) ?vG // hV // linearZ.
Qed.
End Lift.

(* ------------------------------------------------------------------ the regular representation *)
Notation reg := (rm_lift (size G) (regular_lift F G)).
Notation N := (size G).
Notation rmx x := (mx N N (reg x)).
Lemma regr : is_rep n N G (regular_lift F G). Proof. exact: regular_rep. Qed.

(* the column of the identity holds the coefficients *)
Lemma reg_entry x i j : rm_ok x -> (i < N)%N -> (j < N)%N ->
  ent (reg x) i j = coef x (pmul (nth [::] G i) (pinv (nth [::] G j))).
Proof.
move=> ox hi hj; have := mx_lift regr ox => /matrixP /(_ (Ordinal hi) (Ordinal hj)).
rewrite !mxE summxE /= => ->; set gi := nth _ _ i; set gj := nth _ _ j.
have giG : gi \in G := g_nth hi; have gjG : gj \in G := g_nth hj.
have tG : pmul gi (pinv gj) \in G by rewrite (g_mul gG) ?(g_inv gG).
rewrite (bigD1_seq (pmul gi (pinv gj))) ?(g_uniq gG) //= big1_seq ?addr0.
  by rewrite !mxE /= ent_mkmat // (@pmulpKV n) ?vG // (gindex_nth gG) // eqxx mulr1.
move=> h /andP [nh hG]; rewrite !mxE /= ent_mkmat //; have hjG := g_mul gG hG gjG.
case: eqP => [e | _]; last by rewrite mulr0.
by case/eqP: nh; rewrite /gi e gindexK // (@pmulpK n) ?vG.
Qed.
Lemma reg_coef x g : rm_ok x -> g \in G -> coef x g = ent (reg x) (gindex G g) (gindex G (pid n)).
Proof.
move=> ox gg; rewrite reg_entry ?gindex_lt ?(g_one gG) // !gindexK ?(g_one gG) // (@pinv1 n) (@pmulp1 n) //; exact: vG.
Qed.
Lemma reg_faithful x y : rm_ok x -> rm_ok y -> rmx x = rmx y -> rm_eq x y.
Proof.
move=> ox oy e; apply/rm_eqP => // g gg; have h1 := gindex_lt gg; have h2 := gindex_lt (g_one gG).
by rewrite !reg_coef //; have /matrixP /(_ (Ordinal h1) (Ordinal h2)) := e; rewrite !mxE.
Qed.
Lemma reg_eq x y : rm_ok x -> rm_ok y -> rm_eq x y -> rmx x = rmx y.
Proof. by move=> ox oy /(rm_eqP ox oy) h; apply: (lift_ext regr). Qed.

(* -------------------------------------------------------------------------- ring axioms *)
Lemma rm_mulA x y z : rm_ok x -> rm_ok y -> rm_ok z -> rm_eq (rm_mul (rm_mul x y) z) (rm_mul x (rm_mul y z)).
Proof. by move=> ox oy oz; apply: reg_faithful; rewrite ?ok_mul // !(lift_mul regr) ?ok_mul // mulmxA. Qed.
Lemma rm_mul1 x : rm_ok x -> rm_eq (rm_mul x (rm_one F n)) x.
Proof. by move=> ox; apply: reg_faithful; rewrite ?ok_mul ?ok_one // (lift_mul regr) ?ok_one // (lift_one regr) mulmx1. Qed.
Lemma rm_1mul x : rm_ok x -> rm_eq (rm_mul (rm_one F n) x) x.
Proof. by move=> ox; apply: reg_faithful; rewrite ?ok_mul ?ok_one // (lift_mul regr) ?ok_one // (lift_one regr) mul1mx. Qed.
Lemma rm_mulDl x y z : rm_ok x -> rm_ok y -> rm_ok z -> rm_eq (rm_mul (rm_add x y) z) (rm_add (rm_mul x z) (rm_mul y z)).
Proof.
move=> ox oy oz; apply: reg_faithful; rewrite ?ok_mul ?ok_add ?ok_mul // (lift_mul regr) ?ok_add // !(lift_add regr) ?ok_mul //.
by rewrite !(lift_mul regr) // mulmxDl.
Qed.
Lemma rm_mulDr x y z : rm_ok x -> rm_ok y -> rm_ok z -> rm_eq (rm_mul x (rm_add y z)) (rm_add (rm_mul x y) (rm_mul x z)).
Proof.
move=> ox oy oz; apply: reg_faithful; rewrite ?ok_mul ?ok_add ?ok_mul // (lift_mul regr) ?ok_add // !(lift_add regr) ?ok_mul //.
by rewrite !(lift_mul regr) // mulmxDr.
Qed.
Lemma rm_T_mul x y : rm_ok x -> rm_ok y -> rm_eq (rm_T (rm_mul x y)) (rm_mul (rm_T y) (rm_T x)).
Proof.
move=> ox oy; apply: reg_faithful; rewrite ?ok_T ?ok_mul ?ok_T // (lift_T regr) ?ok_mul // !(lift_mul regr) ?ok_T //.
by rewrite trmx_mul !(lift_T regr).
Qed.
Lemma rm_TK x : rm_ok x -> rm_eq (rm_T (rm_T x)) x.
Proof. by move=> ox; apply: reg_faithful; rewrite ?ok_T // !(lift_T regr) ?ok_T // trmxK. Qed.

Lemma foldl_pow z x k : rm_ok z -> rm_ok x -> rm_ok (foldl (@rm_mul F) z (nseq k x)) /\
  forall d L, is_rep n d G L -> mx d d (rm_lift d L (foldl (@rm_mul F) z (nseq k x))) =
    iter k (mulmxr (mx d d (rm_lift d L x))) (mx d d (rm_lift d L z)).
Proof.
elim: k z => [|k IH] z oz ox //=; have [h1 h2] := IH _ (ok_mul oz ox) ox; split=> // d L rep.
by rewrite (h2 _ _ rep) (lift_mul rep) // -/(mulmxr _ _) -iterSr.
Qed.

(* ------------------------------------------------------------------------------- vectors *)
Lemma to_vectorP x : rm_ok x -> size (to_vector G x) = N /\
  forall i, (i < N)%N -> nth 0 (to_vector G x) i = coef x (nth [::] G i).
Proof.
move=> ox; rewrite /to_vector.
have gen v : size v = N -> let w := foldl (fun v t => set_nth 0 v (gindex G t.1) t.2) v x in size w = N /\
    forall i, (i < N)%N -> nth 0 w i = if nth [::] G i \in keys x then coef x (nth [::] G i) else nth 0 v i.
  elim: x ox v => [|[k c] x IH] ox v sv //=.
  have ox' : rm_ok x by move: ox; rewrite /rm_ok /= => /andP [/andP [_ ->] /andP [_ ->]].
  have [kG nk] : k \in G /\ k \notin keys x by move: ox; rewrite /rm_ok /= => /andP [/andP [-> _] /andP [-> _]].
  have kl := gindex_lt kG.
  have sv' : size (set_nth 0 v (gindex G k) c) = N by rewrite size_set_nth sv; apply/maxn_idPr.
  have [h1 h2] := IH ox' _ sv'.
  split=> // i hi; rewrite h2 // in_cons coef_cons nth_set_nth /=.
  have -> : (i == gindex G k) = (k == nth [::] G i).
    by apply/eqP/eqP => [-> | ->]; rewrite ?gindexK ?(gindex_nth gG).
  by rewrite [nth _ _ _ == k]eq_sym; case: eqP => [e | _] //=; rewrite -e (negbTE nk).
have [h1 h2] := gen (nseq N 0) (size_nseq _ _); split=> // i hi.
by rewrite h2 //; case: ifP => // /negbT /coef_out ->; rewrite nth_nseq hi.
Qed.

Lemma ok_from_vector (v : seq F) : rm_ok (from_vector G v).
Proof.
apply: ok_make; apply/allP => g /mapP [t /mapP [u]]; rewrite mem_filter => /andP [_ hu] -> -> /=.
exact: mem_zip2 hu.
Qed.
Lemma coef_from_vector (v : seq F) i : size v = N -> (i < N)%N -> coef (from_vector G v) (nth [::] G i) = nth 0 v i.
Proof.
move=> sv hi; rewrite coef_make big_map big_filter.
transitivity (\sum_(t <- zip v G) (if t.2 == nth [::] G i then t.1 else 0)).
  rewrite [LHS]big_mkcond; apply: eq_bigr => -[a b] _ /=; case: (a =P 0) => //= ->; by case: ifP.
rewrite (big_nth (0, [::])) size_zip sv minnn big_mkord (bigD1 (Ordinal hi)) //= big1 ?addr0; first by rewrite nth_zip //= eqxx.
move=> k nk; rewrite nth_zip //= nth_uniq ?(g_uniq gG) //; case: eqP => // e; case/eqP: nk; exact: val_inj.
Qed.
Lemma to_from_vector (v : seq F) : size v = N -> to_vector G (from_vector G v) = v.
Proof.
move=> sv; have [h1 h2] := to_vectorP (ok_from_vector v); apply: (@eq_from_nth _ 0); rewrite h1 ?sv // => i hi.
by rewrite h2 // coef_from_vector.
Qed.
Lemma from_to_vector x : rm_ok x -> rm_eq (from_vector G (to_vector G x)) x.
Proof.
move=> ox; have [h1 h2] := to_vectorP ox; apply/rm_eqP; rewrite ?ok_from_vector // => g gg.
by rewrite -(gindexK gg) coef_from_vector ?h2 ?gindex_lt.
Qed.

(* ------------------------------------------------------------------------------- inverse *)
Lemma inv_mat_some k (A B : mat F) : size A = k -> wf k A -> inv_mat k A = Some B ->
  [/\ mx k k A \in unitmx, size B = k & mx k k B = invmx (mx k k A)].
Proof.
move=> sA wA e; case: (boolP (mx k k A \in unitmx)) => u.
  by have [B' [e' sB wB mB]] := inv_mat_ok sA wA u; move: e; rewrite e' => -[<-].
move: e; rewrite /inv_mat; case: eqP => // e _; case/negP: u.
have sH : size (hcat A (idl F k)) = k by rewrite size_hcat ?size_idl.
have wH : wf (k + k) (hcat A (idl F k)) by rewrite wf_hcat ?wf_idl.
have mH : mx k (k + k) (hcat A (idl F k)) = row_mx (mx k k A) 1%:M by rewrite mx_hcat ?size_idl ?mx_idl.
have sR : size (row_reduce (k + k) (hcat A (idl F k))) = k by rewrite size_row_reduce.
have wR := wf_row_reduce wH; have := sp_row_reduce wH; set R := row_reduce _ _ in e sR wR * => eR.
have mR : mx k (k + k) R = row_mx 1%:M (mx k k (z_part k R)) by rewrite mx_parts // e mx_idl.
have : (mx k (k + k) R <= row_mx (mx k k A) 1%:M)%MS by rewrite -mH -(sp_mx _ sR) eR (sp_mx _ sH).
by rewrite mR => /submxP [D]; rewrite mul_mx_row => /eq_row_mx [h _]; case: (mulmx1_unit (esym h)).
Qed.

Lemma single_coef x t : rm_ok x -> [seq t <- x | t.2 != 0] = [:: t] ->
  [/\ t.1 \in G, t.2 != 0 & forall g, coef x g = if t.1 == g then t.2 else 0].
Proof.
move=> ox e; have ht : t \in [seq t <- x | t.2 != 0] by rewrite e mem_head.
move: (ht); rewrite mem_filter => /andP [nz tx]; split=> //; first exact: (rm_okP ox).
move=> g; rewrite -(coefE _ (rm_ok_uniq ox)) 
  -[RHS](big_seq1 (GRing.add_monoid F) t (fun u => if u.1 == g then u.2 else 0)) -e big_filter [RHS]big_mkcond /=.
by apply: eq_bigr => u _; case: (u.2 =P 0) => //= ->; case: ifP.
Qed.

Lemma none_coef x : rm_ok x -> [seq t <- x | t.2 != 0] = [::] -> forall g, coef x g = 0.
Proof.
move=> ox e g; rewrite -(coefE _ (rm_ok_uniq ox)) big1_seq // => t /= tx; case: (t.2 =P 0) => [-> | /eqP nz]; first by case: ifP.
by have : t \in [seq t <- x | t.2 != 0]; [rewrite mem_filter nz | rewrite e].
Qed.

Lemma ok_inverse x y : rm_ok x -> rm_inverse G x = Some y -> rm_ok y.
Proof.
move=> ox; rewrite /rm_inverse; case e: [seq t <- x | t.2 != 0] => [|t [|u ts]] //.
  by have [tG _ _] := single_coef ox e => -[<-]; apply: ok_make; rewrite /= andbT; apply: (g_inv gG).
by case: inv_mat => // B [<-]; apply: ok_from_vector.
Qed.

Lemma rmx_single (t : perm * F) : t.1 \in G -> rmx (rm_make [:: t]) = t.2 *: mx N N (regular_lift F G t.1).
Proof.
move=> tG; rewrite (mx_lift regr) ?ok_make //= ?tG // (bigD1_seq t.1) ?(g_uniq gG) //= coef_make big_seq1 eqxx.
by rewrite big1 ?addr0 // => g /negbTE ng; rewrite coef_make big_seq1 eq_sym ng scale0r.
Qed.

Lemma nth0_id : head [::] G = pid n -> (0 < N)%N /\ nth [::] G 0 = pid n.
Proof. by rewrite nth0; have := g_one gG; case: (G). Qed.

Lemma inverse_mx x y : head [::] G = pid n -> rm_ok x -> rm_inverse G x = Some y ->
  rmx x *m rmx y = 1%:M.
Proof.
move=> hd ox; rewrite /rm_inverse; case e: [seq t <- x | t.2 != 0] => [|t [|u ts]] //.
  have [tG nz hx] := single_coef ox e => -[ey]; rewrite -ey.
  have [_ hM h1 hV] := is_repE regr.
  rewrite rmx_single ?(g_inv gG) //= (_ : rmx x = t.2 *: mx N N (regular_lift F G t.1)).
    by rewrite -scalemxAl -scalemxAr scalerA mulfV // scale1r -hM ?(g_inv gG) // (@pmulpV n) ?vG.
  rewrite -rmx_single //; apply: (lift_ext regr) => //; first by rewrite ok_make //= tG.
  by move=> g gg; rewrite hx coef_make big_seq1.
have [sL wL _] := lift_ok regr ox; case eB: inv_mat => [B|] // [ey]; rewrite -ey.
have [uA sB mB] := inv_mat_some sL wL eB; have [N0 e0] := nth0_id hd.
rewrite -(lift_mul regr) ?ok_from_vector //; set w := from_vector _ _.
have ow : rm_ok w := ok_from_vector _.
have hw i : (i < N)%N -> ent (reg w) i 0 = ent B i 0.
  move=> hi; rewrite reg_entry // e0 (@pinv1 n) (@pmulp1 n) ?vG ?mem_nth // coef_from_vector ?size_map ?size_iota //.
  by rewrite (nth_map 0%N) ?size_iota ?sB // nth_iota ?sB.
rewrite -(lift_one regr); apply: reg_eq; rewrite ?ok_mul ?ok_one //; apply/rm_eqP; rewrite ?ok_mul ?ok_one // => g gg.
rewrite reg_coef ?ok_mul // coef_one -e0 (gindex_nth gG) //; have hg := gindex_lt gg.
have /matrixP /(_ (Ordinal hg) (Ordinal N0)) := lift_mul regr ox ow; rewrite !mxE /= => ->.
transitivity ((rmx x *m mx N N B) (Ordinal hg) (Ordinal N0)).
  by rewrite mxE; apply: eq_bigr => k _; rewrite !mxE /= hw.
rewrite mB mulmxV // mxE /=; congr ((nat_of_bool _)%:R); apply/eqP/eqP => [/(congr1 val) /= e1 | e1].
  by rewrite -(gindexK gg) e1.
by apply: val_inj; rewrite /= e1 (gindex_nth gG).
Qed.

Lemma inverse_ok x y : head [::] G = pid n -> rm_ok x -> rm_inverse G x = Some y ->
  rm_eq (rm_mul x y) (rm_one F n) /\ rm_eq (rm_mul y x) (rm_one F n).
Proof.
move=> hd ox e; have oy := ok_inverse ox e; have h := inverse_mx hd ox e.
by split; apply: reg_faithful; rewrite ?ok_mul ?ok_one // (lift_mul regr) // (lift_one regr) // mulmx1C.
Qed.
Lemma inverse_none x y : rm_ok x -> rm_ok y -> rm_inverse G x = None -> ~~ rm_eq (rm_mul x y) (rm_one F n).
Proof.
move=> ox oy e; apply/negP => /(reg_eq (ok_mul ox oy) ok_one); rewrite (lift_mul regr) // (lift_one regr) => h.
have [u _] := mulmx1_unit h; move: e; rewrite /rm_inverse; case e: [seq t <- x | t.2 != 0] => [|t [|v ts]] //.
  have z : rmx x = 0 by rewrite (mx_lift regr) // big1 // => g _; rewrite (none_coef ox e) scale0r.
  have N0 : (0 < N)%N by have := g_one gG; case: (G).
  move: h; rewrite z mul0mx => /matrixP /(_ (Ordinal N0) (Ordinal N0)); rewrite !mxE eqxx => /eqP.
  by rewrite eq_sym oner_eq0.
have [sL wL _] := lift_ok regr ox; have [B [-> _ _ _]] := inv_mat_ok sL wL u; by [].
Qed.
End Ring.
