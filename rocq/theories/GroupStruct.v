(* Descriptions of small groups and their cache: model of qldpc/external/groups.py:77-98. *)
From mathcomp Require Import all_ssreflect.
From Coq Require Import String.
Set Implicit Arguments.
Unset Strict Implicit.
Unset Printing Implicit Defensive.
Local Open Scope seq_scope.

(* a group: its order and its index *)
Definition key := (nat * nat)%type.
(* what is returned: the description by GAP, the name of the group (groups.py:86: SmallGroup(order,index); the text is not modelled),
   or an exception *)
Inductive answer := Described (s : string) | Named (k : key) | Unknown (k : key).
(* what can happen to the cache on disk: a call, with or without GAP installed, and an eviction by diskcache *)
Inductive event := Call (gap : bool) (k : key) | Evict (k : key).

(* ====================================================================== specification *)
(* the description of k is known: it was computed, and not evicted afterwards.  out k is what GAP prints for k, without surrounding
   white space (external) *)
Definition known (out : key -> string) (h : seq event) (k : key) : Prop :=
  exists h1 h2, [/\ h = h1 ++ Call true k :: h2, ~ List.In (Evict k) h2 & out k <> EmptyString].

(* ============================================================================== model *)
Definition is_empty (s : string) : bool := if s is EmptyString then true else false.
(* the cache: a dictionary (groups.py:80; diskcache is external) *)
Definition cache := seq (key * string).
Definition get (c : cache) (k : key) : option string := omap snd (ohead [seq e <- c | e.1 == k]).
(* groups.py:81-98; a cached empty text counts as missing *)
Definition structure (out : key -> string) (gap : bool) (k : key) (c : cache) : answer * cache :=
  let ask := if gap then if is_empty (out k) then (Unknown k, c) else (Described (out k), (k, out k) :: c) else (Named k, c) in
  match get c k with
  | Some s => if is_empty s then ask else (Described s, c)
  | None => ask
  end.
(* a history of the cache, starting with an empty one *)
Definition step (out : key -> string) (c : cache) (e : event) : cache :=
  match e with
  | Call gap k => (structure out gap k c).2
  | Evict k => [seq x <- c | x.1 != k]
  end.
Definition history (out : key -> string) (h : seq event) : cache := foldl (step out) [::] h.

(* ============================================================================= proofs *)
Lemma get_cons k s c k' : get ((k, s) :: c) k' = if k == k' then Some s else get c k'.
Proof. by rewrite /get /=; case: ifP. Qed.
Lemma get_evict c k k' : get [seq x <- c | x.1 != k] k' = if k == k' then None else get c k'.
Proof.
rewrite /get -filter_predI; case: (k =P k') => [<- | ne].
  by rewrite (@eq_filter _ _ pred0) ?filter_pred0 // => x /=; case: (x.1 == k).
congr (omap _ (ohead _)); apply: eq_filter => x /=; case: (x.1 =P k') => //= ->.
by apply/eqP => e; apply: ne.
Qed.
Lemma is_emptyP s : reflect (s = EmptyString) (is_empty s). Proof. by case: s => [|a s]; constructor. Qed.

Lemma known_snoc_call out h gap k k' : known out (h ++ [:: Call gap k]) k' <->
  known out h k' \/ (gap /\ k = k' /\ out k' <> EmptyString).
Proof.
split=> [[h1 [h2 [e n o]]] | [[h1 [h2 [-> n o]]] | [g [<- o]]]].
- case/lastP: h2 e n => [|h2 x] e n; last first.
    left; move: e; rewrite -rcons_cons -rcons_cat cats1 => /rcons_inj [e _]; exists h1, h2; split=> // i.
    by apply: n; rewrite -cats1; apply: List.in_or_app; left.
  by right; move: e; rewrite !cats1 => /rcons_inj [_ -> ->].
- exists h1, (h2 ++ [:: Call gap k]); split=> //; first by rewrite -catA.
  by move=> i; case: (List.in_app_or _ _ _ i) => // -[].
by exists h, [::]; rewrite g; split.
Qed.
Lemma known_snoc_evict out h k k' : known out (h ++ [:: Evict k]) k' <-> known out h k' /\ k <> k'.
Proof.
split=> [[h1 [h2 [e n o]]] | [[h1 [h2 [-> n o]]] ne]]; last first.
  exists h1, (h2 ++ [:: Evict k]); split=> //; first by rewrite -catA.
  by move=> i; case: (List.in_app_or _ _ _ i) => // -[[]|] //.
case/lastP: h2 e n => [|h2 x] e n; first by move: e; rewrite !cats1 => /rcons_inj [].
move: e; rewrite -rcons_cons -rcons_cat cats1 => /rcons_inj [e ex]; split.
  by exists h1, h2; split=> // i; apply: n; rewrite -cats1; apply: List.in_or_app; left.
by move=> ek; apply: n; rewrite -cats1; apply: List.in_or_app; right; left; rewrite -ex ek.
Qed.

Lemma history_get out h k s : get (history out h) k = Some s <-> known out h k /\ s = out k.
Proof.
elim/last_ind: h k s => [|h e IH] k s.
  by split=> // -[[h1 [h2 [e _ _]]] _]; case: h1 e.
rewrite /history foldl_rcons -/(history out h) -cats1; case: e => [gap k0 | k0] /=; last first.
  rewrite get_evict known_snoc_evict; case: (k0 =P k) => [->|ne]; first by split=> // -[[_ []]].
  by rewrite IH; split=> [[] | [[]]].
rewrite known_snoc_call /structure.
case E: (get (history out h) k0) => [s0|].
  have [kn e0] := (IH k0 s0).1 E.
  have n0 : ~~ is_empty s0 by case: kn => h1 [h2 [_ _ o]]; rewrite e0; apply/is_emptyP.
  rewrite (negbTE n0) /= IH; split=> [[kk ->] | [[kk | [_ [<- _]]] ->]]; by [split=> //; left | split].
case: gap; last by rewrite /= IH; split=> [[kk ->] | [[kk | [] //] ->]]; by [split=> //; left | split].
case: (is_emptyP (out k0)) => [e0 | ne] /=.
  by rewrite IH; split=> [[kk ->] | [[kk | [_ [<- //]]] ->]]; by [split=> //; left | split].
rewrite get_cons; case: (k0 =P k) => [<- | nk].
  by split=> [[<-] | [_ ->] //]; split=> //; right.
by rewrite IH; split=> [[kk ->] | [[kk | [_ [//]]] ->]]; by [split=> //; left | split].
Qed.
