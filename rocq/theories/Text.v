(* Python strings (ASCII only): printing and parsing of integers, split and join.  Python built-ins, not part of /repo. *)
From Coq Require Import String Ascii List ZArith Decimal DecimalString DecimalN Lia Bool.
Import ListNotations.
Open Scope string_scope.

(* str(n) for a natural number: decimal digits *)
Definition dec (n : N) : string := NilEmpty.string_of_uint (N.to_uint n).
(* str(z) for an integer *)
Definition decz (z : Z) : string := match z with Z0 => "0" | Zpos p => dec (Npos p) | Zneg p => "-" ++ dec (Npos p) end.

Definition is_digit (a : ascii) : bool := let n := nat_of_ascii a in Nat.leb 48 n && Nat.leb n 57.
(* string.whitespace: tab, newline, vertical tab, form feed, return, the separators 28-31 and space *)
Definition is_space (a : ascii) : bool := let n := nat_of_ascii a in (Nat.leb 9 n && Nat.leb n 13) || (Nat.leb 28 n && Nat.leb n 32).
Fixpoint all_chars (p : ascii -> bool) (s : string) : bool :=
  match s with EmptyString => true | String a s' => p a && all_chars p s' end.
(* s.isnumeric() on ASCII strings *)
Definition isnumeric (s : string) : bool := negb (s =? "") && all_chars is_digit s.
(* int(s): surrounding whitespace and underscores, which python accepts, are not modelled (None) *)
Definition int_of (s : string) : option Z :=
  match s with
  | EmptyString => None
  | String "-" s' => if s' =? "" then None else option_map (fun d => Z.opp (Z.of_N (N.of_uint d))) (NilEmpty.uint_of_string s')
  | _ => option_map (fun d => Z.of_N (N.of_uint d)) (NilEmpty.uint_of_string s)
  end.

(* s.split(c) for the characters c with p c *)
Fixpoint split (p : ascii -> bool) (s : string) : list string :=
  match s with
  | EmptyString => [""]
  | String a s' =>
      if p a then "" :: split p s'
      else match split p s' with [] => [String a ""] | w :: ws => String a w :: ws end
  end.
(* s.split(): runs of whitespace separate words *)
Definition words (s : string) : list string := filter (fun w => negb (w =? "")) (split is_space s).
(* sep.join(l) *)
Fixpoint join (sep : string) (l : list string) : string :=
  match l with [] => "" | [w] => w | w :: l' => w ++ sep ++ join sep l' end.

(* ---------------------------------------------------------------------------------------------- lemmas *)
Lemma app_assoc' a b c : (a ++ b) ++ c = a ++ (b ++ c).
Proof. induction a; simpl; congruence. Qed.
Lemma app_empty a : a ++ "" = a.
Proof. induction a; simpl; congruence. Qed.
Lemma length_app a b : String.length (a ++ b) = String.length a + String.length b.
Proof. induction a; simpl; congruence. Qed.

Lemma substring_app a b c : substring (String.length a) (String.length b) (a ++ b ++ c) = b.
Proof.
  induction a; simpl; trivial.
  induction b; simpl; trivial; [ destruct c; trivial | now rewrite IHb ].
Qed.

Lemma all_app p a b : all_chars p (a ++ b) = all_chars p a && all_chars p b.
Proof. induction a; simpl; trivial. now rewrite IHa, andb_assoc. Qed.

Lemma all_impl (p q : ascii -> bool) s : (forall a, p a = true -> q a = true) -> all_chars p s = true -> all_chars q s = true.
Proof.
  intros h; induction s; simpl; trivial. rewrite !andb_true_iff. intros [h1 h2]; auto.
Qed.

Lemma split_none p s : all_chars (fun a => negb (p a)) s = true -> split p s = [s].
Proof.
  induction s; simpl; trivial. rewrite andb_true_iff, negb_true_iff. intros [h1 h2]. now rewrite h1, IHs.
Qed.

Lemma split_app p s c t : all_chars (fun a => negb (p a)) s = true -> p c = true ->
  split p (s ++ String c t) = s :: split p t.
Proof.
  intros h hc; induction s; simpl in *; [ now rewrite hc | ].
  rewrite andb_true_iff, negb_true_iff in h. destruct h as [h1 h2]. now rewrite h1, IHs.
Qed.

Lemma split_join p c l : p c = true -> l <> [] -> Forall (fun s => all_chars (fun a => negb (p a)) s = true) l ->
  split p (join (String c "") l) = l.
Proof.
  intros hc; induction l as [|w l IH]; [ easy | ]. intros _ h. inversion_clear h as [|? ? h1 h2].
  destruct l as [|w' l].
  - now apply split_none.
  - change (join (String c "") (w :: w' :: l)) with (w ++ String c (join (String c "") (w' :: l))).
    rewrite split_app by trivial. now rewrite IH.
Qed.

Lemma words_join l : Forall (fun s => all_chars (fun a => negb (is_space a)) s = true /\ s <> "") l -> words (join " " l) = l.
Proof.
  intros h; unfold words. destruct l as [|w l]; [ easy | ].
  rewrite (split_join is_space " "%char).
  - clear -h.
    induction h as [|s l' [h1 h2] h IH]; simpl; trivial.
    destruct (String.eqb_spec s ""); [ easy | simpl; now rewrite IH ].
  - reflexivity.
  - discriminate.
  - eapply Forall_impl; [ | exact h ]. now intros s [].
Qed.

(* integers *)
Lemma uint_digits d : all_chars is_digit (NilEmpty.string_of_uint d) = true.
Proof. induction d; simpl; trivial. Qed.
Lemma dec_digits n : all_chars is_digit (dec n) = true.
Proof. apply uint_digits. Qed.
Lemma dec_nonempty n : dec n <> "".
Proof.
  unfold dec. destruct (N.to_uint n) eqn:e; try discriminate.
  destruct n as [|p]; [ discriminate | ].
  assert (h : N.of_uint (N.to_uint (Npos p)) = Npos p) by apply Unsigned.of_to.
  rewrite e in h. discriminate.
Qed.
Lemma dec_numeric n : isnumeric (dec n) = true.
Proof.
  unfold isnumeric. rewrite dec_digits, andb_true_r.
  destruct (String.eqb_spec (dec n) "") as [e|]; [ destruct (dec_nonempty n e) | reflexivity ].
Qed.
Lemma parse_dec n : NilEmpty.uint_of_string (dec n) = Some (N.to_uint n).
Proof. apply NilEmpty.usu. Qed.
Lemma int_of_digits s : isnumeric s = true -> int_of s = option_map (fun d => Z.of_N (N.of_uint d)) (NilEmpty.uint_of_string s).
Proof.
  unfold isnumeric; destruct s as [|a s]; [ discriminate | ]. simpl.
  rewrite andb_true_iff. intros [h _].
  destruct a as [[] [] [] [] [] [] [] []]; trivial; discriminate.
Qed.
Lemma int_of_dec n : int_of (dec n) = Some (Z.of_N n).
Proof. rewrite int_of_digits by apply dec_numeric. rewrite parse_dec. simpl. now rewrite Unsigned.of_to. Qed.
Lemma int_of_decz z : int_of (decz z) = Some z.
Proof.
  destruct z as [|p|p]; [ reflexivity | apply int_of_dec | ].
  change (decz (Zneg p)) with (String "-" (dec (Npos p))).
  cbv [int_of]. rewrite parse_dec. simpl option_map. change (Pos.to_uint p) with (N.to_uint (Npos p)). rewrite Unsigned.of_to.
  destruct (String.eqb_spec (dec (N.pos p)) "") as [e|]; [ destruct (dec_nonempty _ e) | reflexivity ].
Qed.
Lemma decz_nonneg z : (0 <= z)%Z -> decz z = dec (Z.to_N z).
Proof. destruct z; simpl; trivial; lia. Qed.

(* digits are neither whitespace nor any of the separators *)
Lemma digits_avoid (p : ascii -> bool) s : (forall a, is_digit a = true -> p a = false) ->
  all_chars is_digit s = true -> all_chars (fun a => negb (p a)) s = true.
Proof. intros h. apply all_impl. intros a ha. now rewrite h. Qed.
Lemma digit_char a : is_digit a = true -> In a ["0";"1";"2";"3";"4";"5";"6";"7";"8";"9"]%char.
Proof. destruct a as [[] [] [] [] [] [] [] []]; simpl; try discriminate; tauto. Qed.
