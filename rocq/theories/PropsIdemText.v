(* C104: idempotents are read as GAP printed them (qldpc/external/groups.py). *)
From Coq Require Import String Ascii List ZArith NArith Lia Bool.
From Verif Require Import Text GapText GroupNames IdemText.
Import ListNotations.
Open Scope string_scope.

(* all lists of sums of terms over permutations: every idempotent, every coefficient Z(p^k)^m and every cycle is read, in order,
   with points counted from 0.  A sum has at least one term and a cycle at least one point; the identity is read as one empty
   cycle.  Missing from the full statement: other notations for group members, see below *)
Theorem C104_round_trip_partial (ms : list (list term)) :
  (forall ts, In ts ms -> ts <> [] /\ forall t c, In t ts -> In c (t_perm t) -> c <> []) ->
  parse_idempotents (idempotents_text ms) =
  Some (map (map (fun t => ((Z.of_N (t_p t), Z.of_N (t_k t), Z.of_N (t_m t)),
                            if t_perm t then [[]] else map (map Z.of_N) (t_perm t)))) ms).
Proof.
  intros h. rewrite parse_ok.
  - do 2 f_equal.
  - apply Forall_forall. intros ts hts. destruct (h ts hts) as [h1 h2]. split; trivial.
    apply Forall_forall. intros t ht c hc. now apply (h2 t c).
Qed.

(* different idempotents are told apart *)
Theorem C104_distinct ms ms' : Forall good_member ms -> Forall good_member ms' ->
  idempotents_text ms = idempotents_text ms' -> ms = ms'.
Proof.
  intros h h' e. assert (E := parse_ok ms h). rewrite e, (parse_ok ms' h') in E. injection E as E. symmetry. revert E.
  assert (mi : forall (A B : Type) (f : A -> B) (P : A -> Prop) l l', (forall x y, P x -> P y -> f x = f y -> x = y) ->
    Forall P l -> Forall P l' -> map f l = map f l' -> l = l').
  { clear. intros A B f P l l' hf hl. revert l'. induction hl as [|x l hx hl IH]; intros l' hl' e; destruct hl' as [|y l' hy hl']; try discriminate; trivial.
    injection e as e1 e2. f_equal; [ now apply hf | now apply IH ]. }
  assert (mT : forall (A : Type) (l : list A), Forall (fun _ => True) l) by (intros A l; apply Forall_forall; trivial).
  apply (mi _ _ (map meant) good_member); trivial. intros ts ts' [_ g] [_ g']. apply (mi _ _ meant good_term); trivial.
  intros [p k m cs] [p' k' m' cs'] hg hg'. unfold meant; simpl. intros E. injection E as e1 e2 e3 e4.
  apply N2Z.inj in e1. apply N2Z.inj in e2. apply N2Z.inj in e3. subst. f_equal. revert e4.
  assert (mm : forall l l' : list (list N), map (map Z.of_N) l = map (map Z.of_N) l' -> l = l').
  { intros l l'. apply (mi _ _ (map Z.of_N) (fun _ => True)); trivial. intros x y _ _.
    apply (mi _ _ Z.of_N (fun _ => True)); trivial. intros a b _ _. apply N2Z.inj. }
  unfold meant_perm. destruct cs as [|c cs], cs' as [|c' cs']; trivial; try (intros E; exact (mm _ _ E)).
  - intros E. injection E as E _. destruct c'; [ elim (hg' [] (or_introl eq_refl)); trivial | discriminate ].
  - intros E. injection E as E _. destruct c; [ elim (hg [] (or_introl eq_refl)); trivial | discriminate ].
Qed.

(* finding: what does not look like a sum over permutations is left out without an error.  The names of members of a group that is
   not given by permutations (here SmallGroup(2,1), as GAP prints its members) lead to an empty list, or to a part of a sum *)
Theorem C104_notation_refuted : exists text text',
  (text = "[ (Z(3))*<identity> of ...+(Z(3))*f1, (Z(3))*<identity> of ...+(Z(3)^0)*f1 ]" /\ parse_idempotents text = Some []) /\
  (text' = "[ (Z(3))*()+(Z(3))*f1 ]" /\ parse_idempotents text' = Some [[((3, 1, 1)%Z, [[]])]]).
Proof. do 2 eexists. repeat split. Qed.

(* non-vacuity: the text of the test, which is a text of idempotents *)
Definition ex_idem : list (list term) := [[Term 2 1 1 []]; [Term 2 2 2 [[0; 1]]; Term 2 1 0 [[2; 3]; [4; 5]]]]%N.
Example ex_C104_text : idempotents_text ex_idem = "[ (Z(2))*(), (Z(2^2)^2)*(1,2)+(Z(2)^0)*(3,4)(5,6) ]".
Proof. reflexivity. Qed.
Example ex_C104_good : Forall good_member ex_idem.
Proof.
  repeat constructor; try discriminate; intros c hc; simpl in hc; intuition; subst; discriminate.
Qed.
Example ex_C104 : parse_idempotents (idempotents_text ex_idem) =
  Some [[((2, 1, 1), [[]])]; [((2, 2, 2), [[0; 1]]); ((2, 1, 0), [[2; 3]; [4; 5]])]]%Z.
Proof. reflexivity. Qed.

Print Assumptions C104_round_trip_partial.
Print Assumptions C104_distinct.
Print Assumptions C104_notation_refuted.
