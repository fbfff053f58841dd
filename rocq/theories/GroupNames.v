(* Looking up groups on GroupNames.org: model of qldpc/external/groups.py:33-74, 139-150 and 184-219, and of
   qldpc/abstract.py:403-409. *)
From Coq Require Import String Ascii List ZArith NArith Decimal DecimalString Lia Bool.
From Verif Require Import Text QTSave GapText.
Import ListNotations.
Open Scope string_scope.

(* ------------------------------------------------------------------------------------------------ model *)
(* s.find(p): position of the first occurrence of p, or -1 (python built-in) *)
Fixpoint find_nat (p s : string) : option nat :=
  if prefix p s then Some 0 else match s with "" => None | String _ s' => option_map S (find_nat p s') end.
Definition find (p s : string) : Z := match find_nat p s with Some n => Z.of_nat n | None => (-1)%Z end.
(* s[a:b] with integers of any sign (python built-in) *)
Definition bound (s : string) (i : Z) : nat :=
  let n := Z.of_nat (String.length s) in Z.to_nat (if (i <? 0)%Z then Z.max 0 (n + i) else Z.min n i).
Definition slice (s : string) (a b : Z) : string := substring (bound s a) (bound s b - bound s a) s.
(* s[a:], s[:b] and s[::-1] (python built-ins); the last is GapText.rev_string *)
Definition slice_from (s : string) (a : Z) : string := slice s a (Z.of_nat (String.length s)).
Definition slice_to (s : string) (b : Z) : string := slice s 0 b.

Definition nl : string := String newline "".
Definition quote : ascii := """"%char.
(* groups.py:194: the table cell with the label of a group *)
Definition cell (o i : N) : string := "<td>" ++ dec o ++ "," ++ dec i ++ "</td>".
(* groups.py:203: re.search in the section for href= followed by a quoted text without quotes; the text of the first match *)
Fixpoint to_quote (s : string) : option string :=
  match s with "" => None | String a s' => if Ascii.eqb a quote then Some "" else option_map (String a) (to_quote s') end.
Fixpoint search_href (s : string) : option string :=
  match (if prefix "href=""" s then to_quote (substring 6 (String.length s) s) else None) with
  | Some u => Some u
  | None => match s with "" => None | String _ s' => search_href s' end
  end.

(* what a lookup ends with: a value, None, or a ValueError *)
Inductive lookup (A : Type) : Type := Found (x : A) | Nothing | Error.
Arguments Found {A} x. Arguments Nothing {A}. Arguments Error {A}.

(* groups.py:30 *)
Definition base_url : string := "https://people.maths.bris.ac.uk/~matyd/GroupNames/".
(* groups.py:198-200: the section of the page around position loc *)
Definition section_at (page : string) (loc : Z) : string :=
  let e := (loc + find nl (slice_from page loc))%Z in
  let b := (loc - find nl (rev_string (slice_to page loc)))%Z in
  slice page b e.
(* groups.py:184-208: get_group_url, where `page` is what maybe_get_webpage returned *)
Definition get_group_url (page : option string) (o i : N) : lookup string :=
  match page with
  | None => Nothing
  | Some html =>
      let loc := find (cell o i) html in
      if (loc =? -1)%Z then Error
      else match search_href (section_at html loc) with None => Error | Some u => Found (base_url ++ u) end
  end.

(* groups.py:73: re.findall of the cells of groups of the given order; one match at the start of s, with the text after it *)
Definition match_cell (o : string) (s : string) : option (string * string) :=
  let h := "<td>" ++ o ++ "," in
  if prefix h s then
    let (d, r) := take_digits (substring (String.length h) (String.length s) s) in
    if (d =? "") then None
    else if prefix "</td>" r then Some (d, substring 5 (String.length r) r) else None
  else None.
(* the matches from left to right; after a match the search goes on behind it.  The fuel is the length of the text *)
Fixpoint find_cells (fuel : nat) (o s : string) : list string :=
  match fuel with
  | O => []
  | S fuel' =>
      match match_cell o s with
      | Some (d, r) => d :: find_cells fuel' o r
      | None => match s with "" => [] | String _ s' => find_cells fuel' o s' end
      end
  end.
(* int(d) of a string of digits *)
Definition value (d : string) : Z := match int_of d with Some z => z | None => 0%Z end.
(* groups.py:61-74: get_small_group_number without GAP; Error is a ValueError (no page, or max() of nothing) *)
Definition get_small_group_number (page : option string) (o : N) : lookup Z :=
  match page with
  | None => Error
  | Some html =>
      match map value (find_cells (String.length html) (dec o) html) with
      | [] => Error
      | v :: vs => Found (fold_left Z.max vs v)
      end
  end.

(* groups.py:143-148: re.match of SmallGroup, an opening parenthesis, digits, a comma, digits and a closing parenthesis at the
   start of the name; None if it does not match *)
Definition small_group_name (s : string) : option (Z * Z) :=
  if prefix "SmallGroup(" s then
    let (d, r) := take_digits (substring 11 (String.length s) s) in
    match r with
    | String "," r' =>
        let (e, r'') := take_digits r' in
        if (d =? "") || (e =? "") then None
        else match r'' with String ")" _ => Some (value d, value e) | _ => None end
    | _ => None
    end
  else None.

(* groups.py:33-57: get_generators without the disk cache.  `known` is KNOWN_GROUPS.get; `gap` and `names` are the results of
   the two other sources, which may raise *)
Definition get_generators {A : Type} (known : option (list A)) (gap names : lookup (list A)) : lookup (list A) :=
  match known with
  | Some (x :: l) => Found (x :: l)
  | _ =>
      match gap with
      | Nothing => match names with Nothing => Error | r => r end
      | r => r
      end
  end.

(* abstract.py:405: the name without surrounding whitespace, and without spaces *)
Fixpoint no_spaces (s : string) : string :=
  match s with "" => "" | String a s' => if Ascii.eqb a " " then no_spaces s' else String a (no_spaces s') end.
Definition standard_name (s : string) : string := no_spaces (strip s).
(* abstract.py:406-407: the name of the trivial group *)
Definition is_trivial_name (s : string) : bool := standard_name s =? "SmallGroup(1,1)".

(* ------------------------------------------------------------------------------------------------ specification *)
(* p occurs in s after the text a, and not before *)
Definition first_at (p s a : string) : Prop :=
  (exists b, s = a ++ p ++ b) /\ forall a' b', s = a' ++ p ++ b' -> String.length a <= String.length a'.
Definition occurs (p s : string) : Prop := exists a b, s = a ++ p ++ b.
Definition no_nl (s : string) : Prop := all_chars (fun a => negb (Ascii.eqb a newline)) s = true.
Definition no_quote (s : string) : Prop := all_chars (fun a => negb (Ascii.eqb a quote)) s = true.
(* the first link of a line *)
Definition first_link (line u : string) : Prop :=
  exists a b, line = a ++ "href=""" ++ u ++ String quote b /\ no_quote u /\ first_at "href=""" line a.
(* the line of the page in which a text first occurs *)
Definition line_of (p page line : string) : Prop :=
  exists pre post a, page = pre ++ nl ++ line ++ nl ++ post /\ no_nl line /\ (exists b, line = a ++ p ++ b) /\ first_at p page (pre ++ nl ++ a).
(* a label of a group of order o with the index written d *)
Definition lists (page : string) (o : N) (z : Z) : Prop :=
  exists d, isnumeric d = true /\ int_of d = Some z /\ occurs ("<td>" ++ dec o ++ "," ++ d ++ "</td>") page.

(* ------------------------------------------------------------------------------------------------ proofs *)
Lemma prefix_iff p s : prefix p s = true <-> exists b, s = p ++ b.
Proof.
  revert s; induction p as [|x p IH]; intros s; simpl; [ destruct s; split; eauto; reflexivity | ].
  destruct s as [|y s]; [ split; [ easy | intros [b h]; discriminate ] | ].
  simpl. destruct (ascii_dec x y) as [->|ne].
  - rewrite IH. split; intros [b h]; exists b; [ now rewrite h | now injection h ].
  - split; [ easy | intros [b h]; injection h; congruence ].
Qed.
Lemma app_inj a b c : a ++ b = a ++ c -> b = c.
Proof. induction a; simpl; intros h; trivial. injection h; auto. Qed.
Lemma app_len_inj a b c d : String.length a = String.length c -> a ++ b = c ++ d -> a = c /\ b = d.
Proof.
  revert c; induction a as [|x a IH]; intros [|y c]; simpl; try discriminate; [ now split | ].
  intros h1 h2. injection h2 as -> h2. destruct (IH c) as [-> ->]; auto.
Qed.
Lemma find_eq p s : find_nat p s = if prefix p s then Some 0 else match s with "" => None | String _ s' => option_map S (find_nat p s') end.
Proof. destruct s; reflexivity. Qed.
Lemma find_first p s a : first_at p s a -> find_nat p s = Some (String.length a).
Proof.
  revert s; induction a as [|x a IH]; intros s [[b e] h]; subst s.
  - change ("" ++ p ++ b) with (p ++ b). assert (e : prefix p (p ++ b) = true) by (apply prefix_iff; eauto).
    now rewrite find_eq, e.
  - rewrite find_eq. simpl append. destruct (prefix p (String x (a ++ p ++ b))) eqn:e.
    + apply prefix_iff in e. destruct e as [b' e]. specialize (h "" b' e). simpl in h. lia.
    + rewrite IH; trivial. split; [ eauto | ].
      intros a' b' e'. specialize (h (String x a') b'). simpl in h. rewrite e' in h. specialize (h eq_refl). lia.
Qed.
Lemma find_none p s : find_nat p s = None -> ~ occurs p s.
Proof.
  induction s as [|x s IH]; rewrite find_eq.
  - destruct (prefix p "") eqn:e; [ easy | intros _ [a [b h]] ].
    destruct a; [ | discriminate ]. rewrite (proj2 (prefix_iff p "")) in e; [ easy | now exists b ].
  - destruct (prefix p (String x s)) eqn:e; [ easy | ].
    destruct (find_nat p s); [ easy | ]. intros _ [a [b h]]. destruct a as [|y a].
    + rewrite (proj2 (prefix_iff p (String x s))) in e; [ easy | now exists b ].
    + apply IH; trivial. injection h as -> h. now exists a, b.
Qed.

Lemma substring_all s n : String.length s <= n -> substring 0 n s = s.
Proof.
  revert n; induction s; intros [|n]; simpl; intros h; trivial; [ lia | ]. rewrite IHs; trivial. lia.
Qed.
Lemma substring_drop a s n : String.length s <= n -> substring (String.length a) n (a ++ s) = s.
Proof. intros h; induction a; simpl; [ now apply substring_all | trivial ]. Qed.

Lemma find_nl_app w t : no_nl w -> find_nat nl (w ++ nl ++ t) = Some (String.length w).
Proof.
  intros h. apply find_first. split; [ now exists t | ].
  intros a' b'; revert a'. unfold no_nl in h. induction w as [|x w IH]; simpl in *; [ lia | ].
  apply andb_true_iff in h. destruct h as [h1 h2]. intros [|y a'] e; simpl in *.
  - injection e as e _. rewrite e in h1. discriminate.
  - injection e as _ e. apply le_n_S. now apply IH with (1 := h2).
Qed.

Lemma slice_mid a b c : slice (a ++ b ++ c) (Z.of_nat (String.length a)) (Z.of_nat (String.length a + String.length b)) = b.
Proof.
  unfold slice, bound. rewrite !length_app.
  replace (Z.of_nat (String.length a) <? 0)%Z with false by (symmetry; apply Z.ltb_ge; lia).
  replace (Z.of_nat (String.length a + String.length b) <? 0)%Z with false by (symmetry; apply Z.ltb_ge; lia).
  rewrite !Z.min_r by lia. rewrite !Nat2Z.id.
  replace (String.length a + String.length b - String.length a) with (String.length b) by lia.
  apply substring_app.
Qed.

Lemma section_line pre line post a b : no_nl line -> line = a ++ b ->
  section_at (pre ++ nl ++ line ++ nl ++ post) (Z.of_nat (String.length (pre ++ nl ++ a))) = line.
Proof.
  intros h e. unfold section_at.
  assert (ha : no_nl a /\ no_nl b).
  { unfold no_nl in *. rewrite e, all_app, andb_true_iff in h. exact h. }
  destruct ha as [ha hb].
  assert (e1 : slice_from (pre ++ nl ++ line ++ nl ++ post) (Z.of_nat (String.length (pre ++ nl ++ a))) = b ++ nl ++ post).
  { unfold slice_from. rewrite e.
    replace (pre ++ nl ++ (a ++ b) ++ nl ++ post) with ((pre ++ nl ++ a) ++ (b ++ nl ++ post) ++ "")
      by (rewrite app_empty; now rewrite !app_assoc').
    rewrite (length_app (pre ++ nl ++ a)). rewrite (length_app (b ++ nl ++ post)).
    change (String.length "") with 0. rewrite Nat.add_0_r. apply slice_mid. }
  assert (e2 : slice_to (pre ++ nl ++ line ++ nl ++ post) (Z.of_nat (String.length (pre ++ nl ++ a))) = pre ++ nl ++ a).
  { unfold slice_to. rewrite e.
    replace (pre ++ nl ++ (a ++ b) ++ nl ++ post) with ("" ++ (pre ++ nl ++ a) ++ (b ++ nl ++ post))
      by (simpl; now rewrite !app_assoc').
    apply (slice_mid "" (pre ++ nl ++ a)). }
  rewrite e1, e2. rewrite !rev_app. change (rev_string nl) with nl. rewrite !app_assoc'.
  unfold find. rewrite (find_nl_app b post hb). rewrite find_nl_app by (unfold no_nl in *; now rewrite all_rev).
  assert (lr : forall s, String.length (rev_string s) = String.length s).
  { induction s; simpl; trivial. rewrite length_app, IHs. simpl. lia. }
  rewrite lr.
  replace (Z.of_nat (String.length (pre ++ nl ++ a)) + Z.of_nat (String.length b))%Z
    with (Z.of_nat (String.length (pre ++ nl) + String.length line)) by (rewrite e, !length_app; lia).
  replace (Z.of_nat (String.length (pre ++ nl ++ a)) - Z.of_nat (String.length a))%Z
    with (Z.of_nat (String.length (pre ++ nl))) by (rewrite !length_app; lia).
  rewrite <- (app_assoc' pre nl). apply slice_mid.
Qed.

(* links *)
Lemma to_quote_ok u b : no_quote u -> to_quote (u ++ String quote b) = Some u.
Proof.
  unfold no_quote. induction u as [|x u IH]; [ reflexivity | ]. simpl all_chars. rewrite andb_true_iff, negb_true_iff.
  intros [h1 h2]. change (String x u ++ String quote b) with (String x (u ++ String quote b)).
  cbn [to_quote]. now rewrite h1, IH.
Qed.
Lemma search_eq s : search_href s = match (if prefix "href=""" s then to_quote (substring 6 (String.length s) s) else None) with
  | Some u => Some u | None => match s with "" => None | String _ s' => search_href s' end end.
Proof. destruct s; reflexivity. Qed.
Lemma search_link line u : first_link line u -> search_href line = Some u.
Proof.
  intros [a [b [e [hq hf]]]]. revert line e hf. induction a as [|x a IH]; intros line e hf; rewrite search_eq; subst line.
  - change ("" ++ "href=""" ++ u ++ String quote b) with ("href=""" ++ (u ++ String quote b)).
    rewrite (proj2 (prefix_iff "href=""" _)) by eauto.
    change 6 with (String.length "href="""). rewrite substring_drop by (rewrite (length_app "href="""); lia).
    now rewrite to_quote_ok.
  - change (String x a ++ "href=""" ++ u ++ String quote b) with (String x (a ++ "href=""" ++ u ++ String quote b)) in *.
    destruct hf as [_ h]. destruct (prefix "href=""" (String x (a ++ "href=""" ++ u ++ String quote b))) eqn:ep.
    + apply prefix_iff in ep. destruct ep as [b' ep]. specialize (h "" b' ep). simpl in h. lia.
    + apply IH; trivial. split; [ eauto | ]. intros a' b' e'. specialize (h (String x a') b').
      simpl in h. simpl in e'. rewrite e' in h. specialize (h eq_refl). lia.
Qed.
Lemma to_quote_some s u : to_quote s = Some u -> exists b, s = u ++ String quote b /\ no_quote u.
Proof.
  revert u; induction s as [|x s IH]; intros u; cbn [to_quote]; [ easy | ].
  destruct (Ascii.eqb_spec x quote) as [->|ne].
  - intros h; injection h as <-. now exists s.
  - destruct (to_quote s) as [v|]; [ | easy ]. intros h; injection h as <-. destruct (IH v eq_refl) as [b [-> hv]].
    exists b. split; trivial. unfold no_quote in *. simpl. rewrite hv, andb_true_r, negb_true_iff. now apply Ascii.eqb_neq.
Qed.
Lemma search_none line : (forall u b, no_quote u -> ~ occurs ("href=""" ++ u ++ String quote b) line) -> search_href line = None.
Proof.
  induction line as [|x s IH]; intros h; rewrite search_eq; [ reflexivity | ].
  assert (e : (if prefix "href=""" (String x s) then to_quote (substring 6 (String.length (String x s)) (String x s)) else None) = None).
  { destruct (prefix "href=""" (String x s)) eqn:e; trivial. apply prefix_iff in e. destruct e as [b e]. rewrite e.
    change 6 with (String.length "href="""). rewrite substring_drop by (rewrite (length_app "href="""); lia).
    destruct (to_quote b) as [u|] eqn:eu; trivial. apply to_quote_some in eu. destruct eu as [b' [-> hu]].
    exfalso. apply (h u b' hu). exists "", "". rewrite e. simpl. now rewrite app_empty. }
  rewrite e. apply IH. intros u b hu [a [c hc]]. apply (h u b hu). exists (String x a), c. simpl. simpl in hc. now rewrite hc.
Qed.

Lemma url_ok o i page line : line_of (cell o i) page line ->
  get_group_url (Some page) o i = match search_href line with None => Error | Some u => Found (base_url ++ u) end.
Proof.
  intros [pre [post [a [e [hn [[b eb] hf]]]]]]. unfold get_group_url, find. rewrite (find_first _ _ _ hf).
  replace (Z.of_nat (String.length (pre ++ nl ++ a)) =? -1)%Z with false by (symmetry; apply Z.eqb_neq; lia).
  rewrite e. now rewrite (section_line pre line post a (cell o i ++ b)).
Qed.
Lemma url_missing o i page : ~ occurs (cell o i) page -> get_group_url (Some page) o i = Error.
Proof.
  intros h. unfold get_group_url, find. destruct (find_nat (cell o i) page) eqn:e; [ | reflexivity ].
  exfalso; apply h; clear h. revert n e. induction page as [|x s IH]; intros n; rewrite find_eq.
  - destruct (prefix (cell o i) "") eqn:e; [ | easy ]. apply prefix_iff in e. destruct e as [b ->]. now exists "", b.
  - destruct (prefix (cell o i) (String x s)) eqn:e.
    + apply prefix_iff in e. destruct e as [b ->]. now exists "", b.
    + destruct (find_nat (cell o i) s) eqn:e'; [ | easy ]. intros _. destruct (IH _ eq_refl) as [a [b ->]].
      now exists (String x a), b.
Qed.

(* labels *)
Lemma digits_split d d' x y r r' : all_chars is_digit d = true -> all_chars is_digit d' = true ->
  is_digit x = false -> is_digit y = false -> d ++ String x r = d' ++ String y r' -> d = d' /\ String x r = String y r'.
Proof.
  intros h h' hx hy e. assert (e1 := take_digits_app d x r h hx). rewrite e, take_digits_app in e1 by trivial.
  injection e1 as e1 e2 e3. subst. now split.
Qed.
Lemma dec_inj a b : dec a = dec b -> a = b.
Proof. intros h. assert (e := int_of_dec a). rewrite h, int_of_dec in e. injection e. lia. Qed.
Lemma cell_inj o i o' i' r r' : cell o i ++ r = cell o' i' ++ r' -> o = o' /\ i = i' /\ r = r'.
Proof.
  unfold cell. rewrite !app_assoc'. intros h. apply app_inj in h.
  change ("," ++ dec i ++ "</td>" ++ r) with (String "," (dec i ++ "</td>" ++ r)) in h.
  change ("," ++ dec i' ++ "</td>" ++ r') with (String "," (dec i' ++ "</td>" ++ r')) in h.
  apply digits_split in h; trivial; try apply dec_digits. destruct h as [h1 h2]. injection h2 as h2.
  change ("</td>" ++ r) with (String "<" ("/td>" ++ r)) in h2. change ("</td>" ++ r') with (String "<" ("/td>" ++ r')) in h2.
  apply digits_split in h2; trivial; try apply dec_digits. destruct h2 as [h2 h3]. injection h3 as h3.
  split; [ | split ]; trivial; now apply dec_inj.
Qed.

(* numbers of groups *)
Definition ltx (a : ascii) : bool := Ascii.eqb a "<".
Lemma skip_free w t a x : all_chars (fun c => negb (ltx c)) w = true -> w ++ t = a ++ String "<" x -> exists a', a = w ++ a'.
Proof.
  revert a; induction w as [|c w IH]; intros a; simpl; [ intros _ _; now exists a | ].
  rewrite andb_true_iff. intros [h1 h2]. destruct a as [|y a]; simpl; intros h; injection h as h h'.
  - rewrite h in h1. discriminate.
  - destruct (IH _ h2 h') as [a' ->]. exists a'. now rewrite h.
Qed.
Definition cell_of (o d : string) : string := "<td>" ++ o ++ "," ++ d ++ "</td>".
Lemma match_some o s d r : match_cell o s = Some (d, r) <-> s = cell_of o d ++ r /\ isnumeric d = true.
Proof.
  unfold match_cell, cell_of, isnumeric. split.
  - destruct (prefix ("<td>" ++ o ++ ",") s) eqn:e; [ | easy ]. apply prefix_iff in e. destruct e as [b ->].
    rewrite substring_drop by (rewrite !length_app; lia).
    assert (ht : forall q d0 r0, take_digits q = (d0, r0) -> q = d0 ++ r0 /\ all_chars is_digit d0 = true).
    { induction q as [|c q IH]; intros d0 r0; simpl; [ intros h; injection h as <- <-; now split | ].
      destruct (is_digit c) eqn:ec; [ | intros h; injection h as <- <-; now split ].
      destruct (take_digits q) as [d1 r1]. intros h; injection h as <- <-. destruct (IH _ _ eq_refl) as [-> h].
      simpl. now rewrite ec, h. }
    destruct (take_digits b) as [d0 r0] eqn:eb. destruct (ht _ _ _ eb) as [-> hd].
    destruct (d0 =? "") eqn:e0; [ easy | ]. destruct (prefix "</td>" r0) eqn:e1; [ | easy ].
    apply prefix_iff in e1. destruct e1 as [b' ->]. change 5 with (String.length "</td>").
    rewrite substring_drop by (rewrite (length_app "</td>"); lia). intros h; injection h as <- <-.
    rewrite e0, hd. split; trivial. now rewrite !app_assoc'.
  - intros [-> h]. apply andb_true_iff in h. destruct h as [h1 h2]. apply negb_true_iff in h1.
    replace (("<td>" ++ o ++ "," ++ d ++ "</td>") ++ r) with (("<td>" ++ o ++ ",") ++ d ++ "</td>" ++ r) by (now rewrite !app_assoc').
    rewrite (proj2 (prefix_iff _ _)) by eauto. rewrite substring_drop by (rewrite !length_app; lia).
    change ("</td>" ++ r) with (String "<" ("/td>" ++ r)). rewrite take_digits_app by trivial. rewrite h1.
    change (String "<" ("/td>" ++ r)) with ("</td>" ++ r). rewrite (proj2 (prefix_iff "</td>" _)) by eauto.
    change 5 with (String.length "</td>"). now rewrite substring_drop by (rewrite (length_app "</td>"); lia).
Qed.
Lemma cells_ok o fuel s d : all_chars is_digit o = true -> String.length s <= fuel ->
  In d (find_cells fuel o s) <-> isnumeric d = true /\ occurs (cell_of o d) s.
Proof.
  intros ho. revert s. induction fuel as [|fuel IH]; intros s hs.
  - destruct s; [ | simpl in hs; lia ]. split; [ easy | ]. intros [_ [a [b h]]]. destruct a; discriminate.
  - cbn [find_cells]. destruct (match_cell o s) as [[d' r]|] eqn:em.
    + apply match_some in em. destruct em as [-> hn].
      assert (hl : String.length r <= fuel).
      { rewrite length_app in hs. unfold cell_of in hs. simpl in hs. lia. }
      cbn [In]. rewrite (IH _ hl). split.
      * intros [<-|[h1 [a [b ->]]]]; [ split; trivial; now exists "", r | ].
        split; trivial. exists (cell_of o d' ++ a), b. now rewrite app_assoc'.
      * intros [h1 [a [b h]]]. destruct a as [|y a].
        -- left. assert (e : match_cell o (cell_of o d' ++ r) = Some (d, b)) by (apply match_some; now split).
           assert (e' : match_cell o (cell_of o d' ++ r) = Some (d', r)) by (apply match_some; now split).
           congruence.
        -- right. split; trivial. unfold cell_of in h at 1. simpl in h. injection h as <- h.
           assert (hd : all_chars is_digit d' = true) by (unfold isnumeric in hn; now apply andb_true_iff in hn).
           assert (hlt : forall q, all_chars is_digit q = true -> all_chars (fun c => negb (ltx c)) q = true).
           { intros q. apply digits_avoid. intros c hc. destruct (digit_char c hc) as [<-|[<-|[<-|[<-|[<-|[<-|[<-|[<-|[<-|[<-|[]]]]]]]]]]]; reflexivity. }
           change (String "t" (String "d" (String ">" ((o ++ String "," (d' ++ "</td>")) ++ r)))) with ("td>" ++ (o ++ "," ++ d' ++ "</td>") ++ r) in h.
           replace ("td>" ++ (o ++ "," ++ d' ++ "</td>") ++ r) with (("td>" ++ o ++ "," ++ d') ++ "</td>" ++ r) in h by (now rewrite !app_assoc').
           assert (hw : all_chars (fun c => negb (ltx c)) ("td>" ++ o ++ "," ++ d') = true)
             by (rewrite !all_app, (hlt o ho), (hlt d' hd); reflexivity).
           destruct (skip_free _ _ _ _ hw h) as [a2 ->].
           rewrite !app_assoc' in h. apply app_inj in h. apply app_inj in h. apply app_inj in h. apply app_inj in h.
           destruct a2 as [|z a2]; [ discriminate | ]. simpl in h. injection h as <- h.
           change (String "/" (String "t" (String "d" (String ">" r)))) with ("/td>" ++ r) in h.
           destruct (skip_free "/td>" r _ _ eq_refl h) as [a3 ->].
           rewrite !app_assoc' in h. apply app_inj in h. exists a3, b. rewrite h. unfold cell_of. rewrite !app_assoc'. simpl. rewrite ?app_assoc'. simpl. now rewrite ?app_assoc'.
    + destruct s as [|x s].
      * split; [ easy | ]. intros [_ [a [b h]]]. destruct a; discriminate.
      * simpl in hs. rewrite IH by lia. split.
        -- intros [h1 [a [b ->]]]. split; trivial. now exists (String x a), b.
        -- intros [h1 [a [b h]]]. split; trivial. destruct a as [|y a].
           ++ assert (e : match_cell o (String x s) = Some (d, b)) by (apply match_some; now split). congruence.
           ++ injection h as _ h. now exists a, b.
Qed.

Lemma max_ok vs v m : fold_left Z.max vs v = m <-> In m (v :: vs) /\ forall z, In z (v :: vs) -> (z <= m)%Z.
Proof.
  revert v. induction vs as [|w vs IH]; intros v; simpl.
  - split; [ intros <-; split; [ now left | intros z [<-|[]]; lia ] | intros [[h|[]] _]; trivial ].
  - rewrite IH. simpl. split.
    + intros [h1 h2]. split.
      * destruct h1 as [h1|h1]; [ | auto ]. destruct (Z.max_spec v w) as [[_ e]|[_ e]]; rewrite e in h1; auto.
      * intros z [<-|[<-|h]]; [ | | auto ]; specialize (h2 (Z.max v w) (or_introl eq_refl)); lia.
    + intros [h1 h2]. assert (h3 := h2 v (or_introl eq_refl)). assert (h4 := h2 w (or_intror (or_introl eq_refl))). split.
      * destruct h1 as [<-|[<-|h1]]; [ left; lia | left; lia | auto ].
      * intros z [<-|h]; [ lia | auto ].
Qed.
Lemma digits_parse d : all_chars is_digit d = true -> exists u, NilEmpty.uint_of_string d = Some u.
Proof.
  induction d as [|a d IH]; simpl; [ eauto | ]. rewrite andb_true_iff. intros [h1 h2]. destruct (IH h2) as [u ->].
  destruct (digit_char a h1) as [<-|[<-|[<-|[<-|[<-|[<-|[<-|[<-|[<-|[<-|[]]]]]]]]]]]; simpl; eauto.
Qed.
Lemma numeric_value d z : isnumeric d = true -> (int_of d = Some z <-> value d = z).
Proof.
  intros h. unfold value. rewrite (int_of_digits d h). unfold isnumeric in h. apply andb_true_iff in h.
  destruct (digits_parse d (proj2 h)) as [u ->]. simpl. split; intros h1; [ now injection h1 | now rewrite h1 ].
Qed.
Lemma cells_lists page o z : In z (map value (find_cells (String.length page) (dec o) page)) <-> lists page o z.
Proof.
  rewrite in_map_iff. split.
  - intros [d [h1 h2]]. apply cells_ok in h2; [ | apply dec_digits | trivial ]. destruct h2 as [h2 h3].
    exists d. split; trivial. split; trivial. now apply numeric_value.
  - intros [d [h1 [h2 h3]]]. exists d. split; [ now apply numeric_value | ].
    apply cells_ok; [ apply dec_digits | trivial | now split ].
Qed.
Lemma number_ok page o m : get_small_group_number (Some page) o = Found m <-> lists page o m /\ forall z, lists page o z -> (z <= m)%Z.
Proof.
  assert (h : forall z, In z (map value (find_cells (String.length page) (dec o) page)) <-> lists page o z) by (intros; apply cells_lists).
  unfold get_small_group_number. destruct (map value _) as [|v vs].
  - split; [ easy | intros [h1 _]; apply h in h1; destruct h1 ].
  - rewrite <- h. setoid_rewrite <- h. rewrite <- max_ok. split; [ intros e; now injection e | now intros -> ].
Qed.
Lemma number_missing page o : (forall z, ~ lists page o z) -> get_small_group_number (Some page) o = Error.
Proof.
  intros h. unfold get_small_group_number. destruct (map value _) as [|v vs] eqn:e; trivial.
  exfalso. apply (h v). apply cells_lists. rewrite e. now left.
Qed.

(* names *)
Definition gap_name (o i : N) : string := "SmallGroup(" ++ dec o ++ "," ++ dec i ++ ")".
Lemma name_ok o i t : small_group_name (gap_name o i ++ t) = Some (Z.of_N o, Z.of_N i).
Proof.
  unfold small_group_name, gap_name. rewrite app_assoc'. rewrite (proj2 (prefix_iff "SmallGroup(" _)) by eauto.
  change 11 with (String.length "SmallGroup("). rewrite substring_drop by (rewrite (length_app "SmallGroup("); lia).
  rewrite !app_assoc'. change ("," ++ dec i ++ ")" ++ t) with (String "," (dec i ++ ")" ++ t)).
  rewrite take_digits_app by (trivial; apply dec_digits). change (")" ++ t) with (String ")" t).
  rewrite take_digits_app by (trivial; apply dec_digits). rewrite !dec_eqb. simpl orb. cbv iota.
  unfold value. now rewrite !int_of_dec.
Qed.
Lemma take_digits_inv s d r : take_digits s = (d, r) -> s = d ++ r /\ all_chars is_digit d = true.
Proof.
  revert d r. induction s as [|a s IH]; simpl; intros d r.
  - intros h. injection h as <- <-. now split.
  - destruct (is_digit a) eqn:ha.
    + destruct (take_digits s) as [d' r']. intros h. injection h as <- <-.
      destruct (IH d' r' eq_refl) as [-> h2]. simpl. now rewrite ha, h2.
    + intros h. injection h as <- <-. now split.
Qed.
Lemma uint_numeric s : all_chars is_digit s = true -> exists u, NilEmpty.uint_of_string s = Some u.
Proof.
  induction s as [|a s IH]; simpl; [ intros _; now eexists | ]. rewrite andb_true_iff. intros [ha hs].
  destruct (IH hs) as [u ->].
  destruct (digit_char a ha) as [<-|[<-|[<-|[<-|[<-|[<-|[<-|[<-|[<-|[<-|[]]]]]]]]]]]; simpl; now eexists.
Qed.
Lemma int_of_numeric s : s <> "" -> all_chars is_digit s = true -> exists z, int_of s = Some z.
Proof.
  intros ns hs. rewrite int_of_digits.
  - destruct (uint_numeric s hs) as [u ->]. now eexists.
  - unfold isnumeric. rewrite hs. now destruct (String.eqb_spec s "").
Qed.
Lemma name_inv s a b : small_group_name s = Some (a, b) -> exists d e t,
  s = "SmallGroup(" ++ d ++ "," ++ e ++ ")" ++ t /\ (d <> "" /\ all_chars is_digit d = true) /\
  (e <> "" /\ all_chars is_digit e = true) /\ a = value d /\ b = value e.
Proof.
  unfold small_group_name. destruct (prefix "SmallGroup(" s) eqn:hp; [ | discriminate ].
  apply prefix_iff in hp. destruct hp as [u ->].
  change 11 with (String.length "SmallGroup("). rewrite substring_drop by (rewrite (length_app "SmallGroup("); lia).
  destruct (take_digits u) as [d r] eqn:h1. apply take_digits_inv in h1. destruct h1 as [-> hd].
  destruct r as [|c r]; [ discriminate | ].
  destruct (Ascii.eqb_spec c ",") as [->|nc]; [ | repeat (destruct c as [[] [] [] [] [] [] [] []]; try discriminate); now elim nc ].
  destruct (take_digits r) as [e r2] eqn:h2. apply take_digits_inv in h2. destruct h2 as [-> he].
  destruct (String.eqb_spec d "") as [|nd]; [ discriminate | ]. destruct (String.eqb_spec e "") as [|ne]; [ discriminate | ].
  simpl orb. cbv iota. destruct r2 as [|c r2]; [ discriminate | ].
  destruct (Ascii.eqb_spec c ")") as [->|nc]; [ | destruct c as [[] [] [] [] [] [] [] []]; try discriminate; now elim nc ].
  intros h. injection h as <- <-. exists d, e, r2. now repeat split.
Qed.
Lemma no_spaces_none s : all_chars (fun a => negb (is_space a)) s = true -> no_spaces s = s.
Proof.
  induction s as [|a s IH]; simpl; trivial. rewrite andb_true_iff, negb_true_iff. intros [h1 h2].
  destruct (Ascii.eqb_spec a " ") as [->|_]; [ discriminate | now rewrite IH ].
Qed.
Lemma name_no_space o i : all_chars (fun a => negb (is_space a)) (gap_name o i) = true.
Proof.
  assert (h : forall n, all_chars (fun a => negb (is_space a)) (dec n) = true).
  { intros n. apply digits_avoid with (2 := dec_digits n). intros c hc.
    destruct (digit_char c hc) as [<-|[<-|[<-|[<-|[<-|[<-|[<-|[<-|[<-|[<-|[]]]]]]]]]]]; reflexivity. }
  unfold gap_name. rewrite !all_app, !h. reflexivity.
Qed.
Lemma trivial_ok o i : is_trivial_name (gap_name o i) = true <-> o = 1%N /\ i = 1%N.
Proof.
  unfold is_trivial_name, standard_name.
  replace (strip (gap_name o i)) with (gap_name o i)
    by (symmetry; generalize (strip_word "" (gap_name o i) "" eq_refl eq_refl); rewrite app_empty; intros h; apply h; [ apply name_no_space | discriminate ]).
  rewrite no_spaces_none by apply name_no_space. rewrite String.eqb_eq. split.
  - intros h. assert (e := name_ok o i ""). rewrite app_empty, h in e. change (Some (1, 1)%Z = Some (Z.of_N o, Z.of_N i)) in e. injection e as e1 e2. lia.
  - now intros [-> ->].
Qed.

(* computing first occurrences *)
Lemma find_le p a b n : find_nat p (a ++ p ++ b) = Some n -> n <= String.length a.
Proof.
  revert n; induction a as [|x a IH]; intros n; rewrite find_eq.
  - change ("" ++ p ++ b) with (p ++ b). rewrite (proj2 (prefix_iff p _)) by eauto. intros h; injection h as <-. simpl. lia.
  - simpl append. destruct (prefix p (String x (a ++ p ++ b))); [ intros h; injection h as <-; simpl; lia | ].
    destruct (find_nat p (a ++ p ++ b)) as [m|]; [ | easy ]. intros h; injection h as <-. simpl.
    specialize (IH m eq_refl). lia.
Qed.
Lemma first_atI p s a b : s = a ++ p ++ b -> find_nat p s = Some (String.length a) -> first_at p s a.
Proof.
  intros e h. split; [ now exists b | ]. intros a' b' e'. rewrite e' in h. now apply find_le in h.
Qed.
