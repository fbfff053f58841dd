(* C100: looking up groups on the web *)
From Coq Require Import String Ascii List ZArith NArith Lia Bool.
From Verif Require Import Text QTSave GapText GroupNames.
Import ListNotations.
Open Scope string_scope.

(* the address returned for a group is the first link in the line in which its label first occurs, whatever else is on the
   page; a line without links is an error, and so is a page without the label; no page, no address *)
Theorem C100_url o i page line u : line_of (cell o i) page line -> first_link line u ->
  get_group_url (Some page) o i = Found (base_url ++ u).
Proof. intros h1 h2. now rewrite (url_ok o i page line h1), (search_link line u h2). Qed.
Theorem C100_no_link o i page line : line_of (cell o i) page line ->
  (forall u b, no_quote u -> ~ occurs ("href=""" ++ u ++ String quote b) line) -> get_group_url (Some page) o i = Error.
Proof. intros h1 h2. now rewrite (url_ok o i page line h1), (search_none line h2). Qed.
Theorem C100_no_label o i page : ~ occurs (cell o i) page -> get_group_url (Some page) o i = Error.
Proof. apply url_missing. Qed.

(* labels of different groups are never confused: none is a prefix of another one *)
Theorem C100_labels o i o' i' r r' : cell o i ++ r = cell o' i' ++ r' -> o = o' /\ i = i' /\ r = r'.
Proof. apply cell_inj. Qed.

(* the number of groups of an order is the largest index that the page lists for this order, and an error if there is none *)
Theorem C100_number page o m : get_small_group_number (Some page) o = Found m <->
  lists page o m /\ forall z, lists page o z -> (z <= m)%Z.
Proof. apply number_ok. Qed.
Theorem C100_number_missing page o : (forall z, ~ lists page o z) -> get_small_group_number (Some page) o = Error.
Proof. apply number_missing. Qed.

(* the sources are asked in order: the table of known groups, GAP, the web; an error of GAP is not hidden by the web *)
Theorem C100_sources {A : Type} (x : A) l known gap names :
  get_generators (Some (x :: l)) gap names = Found (x :: l) /\
  (gap <> Nothing -> get_generators None gap names = gap) /\
  (names <> Nothing -> get_generators None Nothing names = names) /\
  (get_generators known gap names = Error <->
    (known = None \/ known = Some []) /\ (gap = Error \/ gap = Nothing /\ (names = Nothing \/ names = Error))) /\
  get_generators known gap names <> Nothing.
Proof.
  split; [ reflexivity | ]. split; [ destruct gap; easy | ]. split; [ destruct names; easy | ].
  destruct known as [[|y k]|], gap, names; simpl; split; try easy; split; try easy;
    try (intros _; split; auto); try (intros [[h|h] [h'|[h' [h''|h'']]]]; discriminate).
Qed.

(* the names of indexed groups are recognised, and only that of the trivial group leads to the trivial group *)
Theorem C100_name o i : small_group_name (gap_name o i) = Some (Z.of_N o, Z.of_N i) /\
  (is_trivial_name (gap_name o i) = true <-> o = 1%N /\ i = 1%N).
Proof. split; [ | apply trivial_ok ]. generalize (name_ok o i ""). now rewrite app_empty. Qed.

(* nothing is recognised that does not begin with such a name; the numbers are read from it *)
Theorem C100_recognised name a b : small_group_name name = Some (a, b) -> exists d e t,
  name = "SmallGroup(" ++ d ++ "," ++ e ++ ")" ++ t /\ (d <> "" /\ all_chars is_digit d = true) /\
  (e <> "" /\ all_chars is_digit e = true) /\ int_of d = Some a /\ int_of e = Some b.
Proof.
  intros h. destruct (name_inv name a b h) as (d & e & t & h1 & [h2 h3] & [h4 h5] & -> & ->). exists d, e, t.
  unfold value. destruct (int_of_numeric d h2 h3) as [x ->], (int_of_numeric e h4 h5) as [y ->]. now repeat split.
Qed.
Example ex_C100_recognised : small_group_name "SmallGroup(4,)" = None /\ small_group_name "SmallGroup(16,07)xyz" = Some (16%Z, 7%Z).
Proof. split; reflexivity. Qed.

(* but so are names that only begin like one: without GAP, the generators of the first group are returned for any expression
   that starts with it, such as a product *)
Theorem C100_prefix_refuted : exists name o i, (forall o' i', name <> gap_name o' i') /\
  small_group_name name = Some (Z.of_N o, Z.of_N i).
Proof.
  exists "SmallGroup(4,2)^SmallGroup(2,1)", 4%N, 2%N. split; [ | reflexivity ]. intros o i h.
  assert (e : all_chars (fun a => negb (Ascii.eqb a "^")) (gap_name o i) = true); [ | now rewrite <- h in e ].
  assert (d : forall n, all_chars (fun a => negb (Ascii.eqb a "^")) (dec n) = true).
  { intros n. apply (digits_avoid (fun a => Ascii.eqb a "^")) with (2 := dec_digits n). intros c hc.
    destruct (digit_char c hc) as [<-|[<-|[<-|[<-|[<-|[<-|[<-|[<-|[<-|[<-|[]]]]]]]]]]]; reflexivity. }
  unfold gap_name. now rewrite !all_app, !d.
Qed.

(* the first and the last line of the page are treated differently from all others: without a newline before (after) it, the
   part of the line before (after) the label is not searched *)
Theorem C100_first_line_refuted : exists o i line rest a u, no_nl line /\ first_at (cell o i) (line ++ nl ++ rest) a /\
  first_link line u /\ get_group_url (Some (line ++ nl ++ rest)) o i = Error.
Proof.
  exists 2%N, 1%N, "<a href=""1/C2.html"">C2</a><td>2,1</td>", "", "<a href=""1/C2.html"">C2</a>", "1/C2.html".
  split; [ reflexivity | ]. split; [ apply first_atI with (b := nl); reflexivity | ]. split; [ | reflexivity ].
  exists "<a ", ">C2</a><td>2,1</td>". split; [ reflexivity | ]. split; [ reflexivity | ].
  eapply first_atI with (b := "1/C2.html"">C2</a><td>2,1</td>"); reflexivity.
Qed.
Theorem C100_last_line_refuted : exists o i pre line a u, no_nl line /\ first_at (cell o i) (pre ++ nl ++ line) a /\
  first_link line u /\ get_group_url (Some (pre ++ nl ++ line)) o i = Error.
Proof.
  exists 2%N, 1%N, "", "<td>2,1</td><a href=""1/C2.html"">C2</a>", nl, "1/C2.html".
  split; [ reflexivity | ]. split; [ apply first_atI with (b := "<a href=""1/C2.html"">C2</a>"); reflexivity | ].
  split; [ | reflexivity ].
  exists "<td>2,1</td><a ", ">C2</a>". split; [ reflexivity | ]. split; [ reflexivity | ].
  eapply first_atI with (b := "1/C2.html"">C2</a>"); reflexivity.
Qed.

(* non-vacuity: a page with three groups *)
Definition row1 : string := "<tr><td><a href=""1/C4.html"">C4</a></td><td>4,1</td></tr>".
Definition row2 : string := "<tr><td><a href=""1/C2%5E2.html"">C2^2</a></td><td><a href=""D4.html"">D2</a></td><td>4,2</td></tr>".
Definition row3 : string := "<tr><td><a href=""32/C4.html"">C4</a></td><td>24,2</td></tr>".
Definition small_page : string := "<table>" ++ nl ++ row1 ++ nl ++ row3 ++ nl ++ row2 ++ nl ++ "</table>".
Example ex_C100_line : line_of (cell 4 2) small_page row2 /\ first_link row2 "1/C2%5E2.html".
Proof.
  split.
  - exists ("<table>" ++ nl ++ row1 ++ nl ++ row3), "</table>", "<tr><td><a href=""1/C2%5E2.html"">C2^2</a></td><td><a href=""D4.html"">D2</a></td>".
    split; [ reflexivity | ]. split; [ reflexivity | ]. split; [ now exists "</tr>" | ].
    eapply first_atI with (b := "</tr>" ++ nl ++ "</table>"); reflexivity.
  - exists "<tr><td><a ", ">C2^2</a></td><td><a href=""D4.html"">D2</a></td><td>4,2</td></tr>".
    split; [ reflexivity | ]. split; [ reflexivity | ].
    eapply first_atI with (b := "1/C2%5E2.html"">C2^2</a></td><td><a href=""D4.html"">D2</a></td><td>4,2</td></tr>"); reflexivity.
Qed.
Example ex_C100_url : get_group_url (Some small_page) 4 2 = Found (base_url ++ "1/C2%5E2.html").
Proof. reflexivity. Qed.
Example ex_C100_number : get_small_group_number (Some small_page) 4 = Found 2%Z.
Proof. reflexivity. Qed.
Example ex_C100_none : get_small_group_number (Some small_page) 2 = Error.
Proof. reflexivity. Qed.

Print Assumptions C100_url.
Print Assumptions C100_no_link.
Print Assumptions C100_no_label.
Print Assumptions C100_labels.
Print Assumptions C100_number.
Print Assumptions C100_number_missing.
Print Assumptions C100_sources.
Print Assumptions C100_name.
Print Assumptions C100_recognised.
Print Assumptions C100_prefix_refuted.
Print Assumptions C100_first_line_refuted.
Print Assumptions C100_last_line_refuted.
