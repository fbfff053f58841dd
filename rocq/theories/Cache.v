(* The disk cache decorator: model of qldpc/cache.py:39-70. *)
From mathcomp Require Import all_ssreflect.
From Coq Require Import String.
Set Implicit Arguments.
Unset Strict Implicit.
Unset Printing Implicit Defensive.

(* ============================================================================== model *)
Section Cache.
(* A: argument lists (positional and keyword), K: keys, R: results.  The decorated function is deterministic; None stands for an
   exception.  `key` is key_func or the default key *)
Variables (A R : Type) (K : eqType) (key : A -> K) (fn : A -> option R).

(* what a call of the wrapper ends with: a value, the exception of the function, or KeyError from `cache[key]` *)
Inductive outcome := Value (r : R) | Raised | KeyErr.

(* diskcache.Cache as a dictionary (external): later entries shadow earlier ones.  It is shared by all calls and processes and
   survives restarts.  Keys are compared by value *)
Definition store := seq (K * R).
Definition lookup (st : store) (k : K) : option R := omap snd (ohead [seq e <- st | e.1 == k]).
Definition evict (P : pred K) (st : store) : store := [seq e <- st | ~~ P e.1].

(* cache.py:52-65: function_with_cache, one access to the cache or one call of the function per step, so that calls from several
   processes may interleave and the cache may drop entries at any point *)
Inductive thread :=
| Start (a : A)                       (* before `key in cache`, line 59 *)
| Hit (a : A)                         (* before `return cache[key]`, line 60 *)
| Miss (a : A)                        (* before `result = function(...)`, line 63 *)
| Save (a : A) (r : R)                (* before `cache[key] = result`, line 64 *)
| Done (a : A) (o : outcome).
Definition step (st : store) (t : thread) : store * thread :=
  match t with
  | Start a => (st, if lookup st (key a) is Some _ then Hit a else Miss a)
  | Hit a => (st, Done a (if lookup st (key a) is Some r then Value r else KeyErr))
  | Miss a => (st, if fn a is Some r then Save a r else Done a Raised)
  | Save a r => ((key a, r) :: st, Done a (Value r))
  | Done a o => (st, Done a o)
  end.

(* a history: calls are started, some running call makes a step, or the cache drops the entries selected by P *)
Inductive event := Call (a : A) | Step (i : nat) | Evict (P : pred K).
Definition exec1 (s : store * seq thread) (e : event) : store * seq thread :=
  match e with
  | Call a => (s.1, rcons s.2 (Start a))
  | Step i => if nth None (map Some s.2) i is Some t then let: (st, t') := step s.1 t in (st, set_nth t s.2 i t') else s
  | Evict P => (evict P s.1, s.2)
  end.
Definition exec (s : store * seq thread) (es : seq event) := foldl exec1 s es.
Definition is_evict (e : event) := if e is Evict _ then true else false.

(* ====================================================================== specification *)
Definition plain (a : A) : outcome := if fn a is Some r then Value r else Raised.

(* ============================================================================= proofs *)
Definition sound_store (st : store) := forall a r, lookup st (key a) = Some r -> fn a = Some r.
Definition sound_thread (t : thread) := match t with
  | Save a r => fn a = Some r
  | Done a o => o = plain a \/ o = KeyErr
  | _ => True end.

Lemma lookup_evict P st k : lookup (evict P st) k = if P k then None else lookup st k.
Proof.
rewrite /lookup /evict; elim: st => [|[k' r] st IH] /=; first by case: ifP.
case: (boolP (P k')) => Pk' /=; case: eqP => [e | _] /=.
- by rewrite IH -e Pk'.
- exact: IH.
- by rewrite -e (negbTE Pk').
- exact: IH.
Qed.

Hypothesis key_ok : forall a b, key a = key b -> fn a = fn b.

Lemma sound_evict P st : sound_store st -> sound_store (evict P st).
Proof. by move=> h a r; rewrite lookup_evict; case: ifP => // _; apply: h. Qed.

Lemma sound_step st t : sound_store st -> sound_thread t -> sound_store (step st t).1 /\ sound_thread (step st t).2.
Proof.
move=> hs; case: t => [a|a|a|a r|a o] //= ht.
- by split=> //; case: lookup.
- by split=> //; case E: (lookup st (key a)) => [r|]; [left; rewrite /plain (hs _ _ E) | right].
- by split=> //; case E: (fn a) => [r|] //=; left; rewrite /plain E.
- split; last by left; rewrite /plain ht.
  move=> b r'; rewrite /lookup /=; case: eqP => [e [<-] | _]; last exact: hs.
  by rewrite -(key_ok e).
Qed.

Definition sound (s : store * seq thread) :=
  sound_store s.1 /\ forall i t, nth None (map Some s.2) i = Some t -> sound_thread t.

Lemma nth_someP (T : Type) (s : seq T) i t : nth None (map Some s) i = Some t -> i < size s.
Proof. by move=> h; rewrite ltnNge; apply/negP => le; rewrite nth_default ?size_map in h. Qed.

Lemma sound_exec1 s e : sound s -> sound (exec1 s e).
Proof.
move=> [h1 h2]; case: e => [a | i | P] /=.
- split=> //= i t; rewrite map_rcons nth_rcons size_map; case: ltngtP => // [_ | _ [<-] //]; exact: h2.
- case E: nth => [t|] //; have := sound_step h1 (h2 _ _ E); case: step => st t' /= [k1 k2].
  split=> //= j u; rewrite (_ : map Some (set_nth t s.2 i t') = set_nth None (map Some s.2) i (Some t')).
    by rewrite nth_set_nth /=; case: eqP => [_ [<-] // | _]; apply: h2.
  have := nth_someP E; move: (s.2); clear; elim: i => [|i IH] [|x xs] //= hi.
  by rewrite IH.
- split=> //=; exact: sound_evict.
Qed.

Lemma sound_exec s es : sound s -> sound (exec s es).
Proof. by elim: es s => [|e es IH] s h //=; apply/IH/sound_exec1. Qed.

(* without evictions no KeyError: entries never disappear *)
Definition kept (s : store * seq thread) := forall i t, nth None (map Some s.2) i = Some t ->
  match t with Hit a => lookup s.1 (key a) <> None | Done a o => o <> KeyErr | _ => True end.

Lemma lookup_cons (k k' : K) (r : R) st : lookup st k' <> None -> lookup ((k, r) :: st) k' <> None.
Proof. by rewrite /lookup /=; case: eqP. Qed.

Lemma kept_exec1 s e : ~~ is_evict e -> kept s -> kept (exec1 s e).
Proof.
move=> ne h; case: e ne => [a | i | P] //= _.
- move=> j t /=; rewrite map_rcons nth_rcons size_map; case: ltngtP => // [_ | _ [<-] //]; exact: h.
- case E: nth => [t|] //; have lt := nth_someP E; have := h _ _ E.
  have set_some t' : map Some (set_nth t s.2 i t') = set_nth None (map Some s.2) i (Some t').
    by move: lt; move: (s.2); clear; elim: i => [|i IH] [|x xs] //= hi; rewrite IH.
  case: t E set_some => [a|a|a|a r|a o] E set_some /= ht j u /=; rewrite set_some nth_set_nth /=.
  + by case: eqP => [_ [<-] | _]; [case L: (lookup _ _) => //; rewrite L | apply: h].
  + by case: eqP => [_ [<-] | _]; [case: lookup ht | apply: h].
  + by case: eqP => [_ [<-] | _]; [case: (fn a) | apply: h].
  + case: eqP => [_ [<-] // | _] /h; case: u => // a' ; exact: lookup_cons.
  + by case: eqP => [_ [<-] | _]; [ | apply: h].
Qed.

Lemma kept_exec s es : all (predC is_evict) es -> kept s -> kept (exec s es).
Proof. by elim: es s => [|e es IH] s //= /andP [h1 h2] h; apply: (IH _ h2); apply: kept_exec1. Qed.

Lemma cache_ok es i a o : nth None (map Some (exec ([::], [::]) es).2) i = Some (Done a o) ->
  o = plain a \/ (o = KeyErr /\ has is_evict es).
Proof.
move=> h; have [_ /(_ _ _ h) /= s] : sound (exec ([::], [::]) es).
  by apply: sound_exec; split=> // j t /=; rewrite nth_nil.
case: s => [-> | e]; [by left | right; split=> //].
rewrite -[has _ _]negbK -all_predC; apply/negP => ne.
have : kept (exec ([::], [::]) es) by apply: kept_exec => // j t /=; rewrite nth_nil.
by move=> /(_ _ _ h) /(_ e).
Qed.
End Cache.

(* ================================================================ the default key *)
(* hashable python values: integers (nat here), strings and tuples *)
Inductive pv := PInt (n : nat) | PStr (s : string) | PTup (l : seq pv).

Fixpoint pv_eqb (x y : pv) : bool :=
  match x, y with
  | PInt n, PInt m => n == m
  | PStr s, PStr t => String.eqb s t
  | PTup l, PTup m => (fix go l m := match l, m with
      | [::], [::] => true | a :: l', b :: m' => pv_eqb a b && go l' m' | _, _ => false end) l m
  | _, _ => false
  end.
Lemma pv_eqP : Equality.axiom pv_eqb.
Proof.
have H : forall n x, (fix sz (x : pv) := match x with PTup l => (foldr (fun a s => sz a + s) 0 l).+1 | _ => 1 end) x <= n ->
  forall y, reflect (x = y) (pv_eqb x y); last by move=> x y; exact: (H _ x (leqnn _)).
elim=> [|n IH] [k|s|l] //= hn [k'|s'|m] /=; try by constructor.
- by apply: (iffP eqP) => [-> // | [->]].
- by apply: (iffP (String.eqb_spec _ _)) => [-> // | [->]].
apply: (@iffP (l = m)); [| by move=> -> | by case].
elim: l m hn => [|a l IHl] [|b m] //=; try by constructor.
rewrite ltnS => hn.
have ha := leq_trans (leq_addr _ _) hn; have hl := leq_trans (leq_addl _ _) hn.
case: (IH a ha b) => [-> /= | ne]; last by constructor; case.
by apply: (iffP (IHl m hl)) => [-> // | [->]].
Qed.
Canonical pv_eqType := EqType pv (EqMixin pv_eqP).

(* cache.py:58: args + tuple(kwargs.items()) *)
Definition call := (seq pv * seq (string * pv))%type.
Definition default_key (c : call) : seq pv := c.1 ++ [seq PTup [:: PStr kv.1; kv.2] | kv <- c.2].

Definition is_tup (x : pv) := if x is PTup _ then true else false.

Lemma default_key_inj (c d : call) : ~~ has is_tup c.1 -> ~~ has is_tup d.1 -> default_key c = default_key d -> c = d.
Proof.
case: c => a k; case: d => b l; rewrite /default_key /=.
have inj : forall k l : seq (string * pv), [seq PTup [:: PStr kv.1; kv.2] | kv <- k] = [seq PTup [:: PStr kv.1; kv.2] | kv <- l] -> k = l.
  by elim=> [|[s x] k' IH] [|[t y] l'] //= [-> -> /IH ->].
elim: a b => [|x a IH] [|y b] //=.
- by move=> _ _ /inj ->.
- by move=> _ /norP [ny _]; case: k => [|[s x] k'] // [e]; rewrite -e in ny.
- by move=> /norP [nx _]; case: (l) => [|[s y] l'] // _ [e]; rewrite e in nx.
- by move=> /norP [_ ha] /norP [_ hb] [-> /(IH b ha hb) [-> ->]].
Qed.
