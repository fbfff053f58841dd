(* C68: the disk cache decorator (qldpc/cache.py). *)
From mathcomp Require Import all_ssreflect.
From Coq Require Import String.
From Verif Require Import Cache.
Set Implicit Arguments.
Unset Strict Implicit.
Unset Printing Implicit Defensive.

(* C68, partial: if calls with equal keys have equal results, then in every history of calls, interleaved in any way and with any
   evictions, a finished call ends as the undecorated function does; the only other ending is the KeyError of line 60, and that
   needs an eviction.  Missing from the full statement: the KeyError, and keys that collide (see the refutations) *)
Theorem C68_cache_partial (A R : Type) (K : eqType) (key : A -> K) (fn : A -> option R) (es : seq (event A K)) i a o :
  (forall a b, key a = key b -> fn a = fn b) ->
  nth None (map Some (exec key fn ([::], [::]) es).2) i = Some (Done a o) ->
  o = plain fn a \/ (o = KeyErr R /\ has (@is_evict _ _) es).
Proof. move=> h; exact: cache_ok h _ _ _ _. Qed.

(* the default key separates any two calls without tuples among their positional arguments *)
Theorem C68_default_key_partial (c d : call) :
  ~~ has is_tup c.1 -> ~~ has is_tup d.1 -> default_key c = default_key d -> c = d.
Proof. exact: default_key_inj. Qed.

(* C68 fails for the default key: after f(("a", 1)) the call f(a=1) returns the result of the former *)
Definition call_pos : call := ([:: PTup [:: PStr "a"; PInt 1]], [::]).
Definition call_kw : call := ([::], [:: ("a"%string, PInt 1)]).
Definition arity (c : call) : option nat := Some (size c.1).
Theorem C68_default_key_refuted : exists (fn : call -> option nat) es a o i,
  [/\ nth None (map Some (exec default_key fn ([::], [::]) es).2) i = Some (Done a o), ~~ has (@is_evict _ _) es & o <> plain fn a].
Proof.
exists arity, [:: Call _ call_pos; Step _ _ 0; Step _ _ 0; Step _ _ 0; Call _ call_kw; Step _ _ 1; Step _ _ 1].
by exists call_kw, (Value 1), 1; split.
Qed.

(* C68 fails with any key function, even for one that never collides, when the entry is dropped between lines 59 and 60 *)
Theorem C68_eviction_refuted : exists (fn : nat -> option nat) es a i,
  nth None (map Some (exec id fn ([::], [::]) es).2) i = Some (Done a (KeyErr nat)) /\ isSome (fn a).
Proof.
exists Some, [:: Call _ 7; Step _ _ 0; Step _ _ 0; Step _ _ 0; Call _ 7; Step _ _ 1; Evict _ (fun _ => true); Step _ _ 1], 7, 1.
by [].
Qed.

(* non-vacuity: a history with a miss, a hit and an eviction in which all calls return *)
Example ex_C68 : exists es, (forall a b : nat, id a = id b -> Some (a * a) = Some (b * b)) /\
  [/\ nth None (map Some (exec (K := nat_eqType) id (fun a => Some (a * a)) ([::], [::]) es).2) 0 = Some (Done 5 (Value 25)),
      nth None (map Some (exec (K := nat_eqType) id (fun a => Some (a * a)) ([::], [::]) es).2) 1 = Some (Done 5 (Value 25)) &
      nth None (map Some (exec (K := nat_eqType) id (fun a => Some (a * a)) ([::], [::]) es).2) 2 = Some (Done 5 (Value 25))].
Proof.
exists [:: Call _ 5; Step _ _ 0; Step _ _ 0; Step _ _ 0; Call _ 5; Step _ _ 1; Step _ _ 1; Evict _ (fun k => k == 5);
  Call _ 5; Step _ _ 2; Step _ _ 2; Step _ _ 2].
by split=> [a b -> //|]; split.
Qed.
Example ex_C68_key : default_key ([:: PStr "CyclicGroup(3)"], [:: ("field"%string, PInt 2)]) =
  [:: PStr "CyclicGroup(3)"; PTup [:: PStr "field"; PInt 2]].
Proof. by []. Qed.

Print Assumptions C68_cache_partial.
Print Assumptions C68_default_key_partial.
Print Assumptions C68_default_key_refuted.
Print Assumptions C68_eviction_refuted.
