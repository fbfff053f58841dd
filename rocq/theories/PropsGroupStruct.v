(* C109: descriptions of small groups do not depend on the history of the cache (qldpc/external/groups.py). *)
From mathcomp Require Import all_ssreflect.
From Coq Require Import String.
From Verif Require Import GroupStruct.
Set Implicit Arguments.
Unset Strict Implicit.
Unset Printing Implicit Defensive.
Local Open Scope seq_scope.

(* C109: with GAP, the answer is what GAP prints, and an exception if this is empty, after any calls (with or without GAP) and
   evictions *)
Theorem C109_with_gap out h k :
  (out k <> EmptyString -> (structure out true k (history out h)).1 = Described (out k)) /\
  (out k = EmptyString -> (structure out true k (history out h)).1 = Unknown k).
Proof.
rewrite /structure; case E: (get (history out h) k) => [s|].
  have [[h1 [h2 [_ _ o]]] ->] := (history_get out h k s).1 E.
  by split=> [_|//]; case: is_emptyP.
by split=> o; case: is_emptyP.
Qed.

(* without GAP, the answer is the description if it was computed earlier and not evicted since, and the name of the group otherwise;
   names are never stored in place of descriptions *)
Theorem C109_without_gap out h k :
  (known out h k -> (structure out false k (history out h)).1 = Described (out k)) /\
  (~ known out h k -> (structure out false k (history out h)).1 = Named k).
Proof.
rewrite /structure; case E: (get (history out h) k) => [s|].
  have [kn ->] := (history_get out h k s).1 E.
  by split=> [_|//]; case: (kn) => h1 [h2 [_ _ o]]; case: is_emptyP.
by split=> // kn; have := (history_get out h k (out k)).2 (conj kn erefl); rewrite E.
Qed.

(* non-vacuity *)
Definition ex_out (k : key) : string := if k == (6, 1) then "S3"%string else if k == (2, 1) then "C2"%string else EmptyString.
Example ex_C109_known : known ex_out [:: Evict (6, 1); Call true (6, 1); Call false (2, 1); Evict (2, 1)] (6, 1).
Proof. by exists [:: Evict (6, 1)], [:: Call false (2, 1); Evict (2, 1)]; split=> // -[|[[]|]]. Qed.
Example ex_C109_evicted : ~ known ex_out [:: Call true (6, 1); Evict (6, 1)] (6, 1).
Proof. by rewrite -[[:: _; _]]/([:: Call true (6, 1)] ++ [:: Evict (6, 1)]) => /known_snoc_evict [_]. Qed.
Example ex_C109_run : let c := history ex_out [:: Call false (6, 1); Call true (6, 1); Call true (2, 1); Evict (2, 1)] in
  [/\ (structure ex_out false (6, 1) c).1 = Described "S3", (structure ex_out false (2, 1) c).1 = Named (2, 1),
      (structure ex_out true (2, 1) c).1 = Described "C2" & (structure ex_out true (6, 9) c).1 = Unknown (6, 9)].
Proof. by []. Qed.

Print Assumptions C109_with_gap.
Print Assumptions C109_without_gap.
