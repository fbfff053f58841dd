(* The text that GAP prints for permutations, and how it is read: model of qldpc/external/groups.py:98-136, 164-183 and
   qldpc/abstract.py:104-113. *)
From Coq Require Import String Ascii List ZArith NArith Nnat Lia Bool.
From Verif Require Import Text QTSave.
Import ListNotations.
Open Scope string_scope.

(* ------------------------------------------------------------------------------------------------ model *)
(* s.split(")(") *)
Fixpoint split2 (s : string) : list string :=
  match s with
  | EmptyString => [""]
  | String a s' =>
      match a, s' with
      | ")"%char, String "(" s'' => "" :: split2 s''
      | _, _ => match split2 s' with [] => [String a ""] | w :: ws => String a w :: ws end
      end
  end.
(* s[:-1] *)
Fixpoint drop_last (s : string) : string :=
  match s with EmptyString => "" | String a EmptyString => "" | String a s' => String a (drop_last s') end.
(* s[1:-1] *)
Definition inner (s : string) : string := match s with EmptyString => "" | String _ s' => drop_last s' end.
(* not s.strip() *)
Definition blank (s : string) : bool := all_chars is_space s.
Definition is_comma (a : ascii) : bool := Ascii.eqb a ",".
(* groups.py:121-132: one line of the output of GAP; None is the ValueError *)
Definition gap_line (line : string) : option (list (list Z)) :=
  option_map (map (map (fun i => (i - 1)%Z)))
    (all_some (map (fun c => all_some (map int_of (split is_comma c))) (filter (fun c => negb (c =? "")) (split2 (inner line))))).
(* groups.py:116-136: all lines *)
Definition gap_generators (text : string) : option (list (list (list Z))) :=
  all_some (map gap_line (filter (fun l => negb (blank l)) (splitlines text))).
(* groups.py:172-183: the texts of the generators found on GroupNames.org *)
Definition groupnames_generator (s : string) : option (list (list Z)) :=
  option_map (map (map (fun i => (i - 1)%Z))) (all_some (map (fun c => all_some (map int_of (words c))) (split2 (inner s)))).

(* abstract.py:104-113: GroupMember.to_gap_cycles, from the cyclic form of the permutation; this is the notation that GAP prints *)
Definition to_gap_cycle (c : list Z) : string := "(" ++ join "," (map decz (map (fun i => (i + 1)%Z) c)) ++ ")".
Definition to_gap_cycles (cycles : list (list Z)) : string :=
  match cycles with [] => "()" | _ => fold_right (fun c t => to_gap_cycle c ++ t) "" cycles end.
(* the output of `for gen in gens do Print(gen, "\n"); od;` *)
Definition gap_print (gens : list (list (list Z))) : string := write (map to_gap_cycles gens).
(* the notation of GroupNames.org: as above, with blanks between the numbers *)
Definition groupnames_print (cycles : list (list Z)) : string :=
  fold_right (fun c t => "(" ++ join " " (map decz (map (fun i => (i + 1)%Z) c)) ++ ")" ++ t) "" cycles.

(* ----------------------------------------------------------------------------------------------- proofs *)
Definition is_paren (a : ascii) : bool := Ascii.eqb a "(" || Ascii.eqb a ")".
Definition noparen (s : string) : Prop := all_chars (fun a => negb (is_paren a)) s = true.

Lemma split2_none s : noparen s -> split2 s = [s].
Proof.
  induction s as [|a s IH]; trivial. unfold noparen; simpl. rewrite andb_true_iff. intros [h1 h2]. rewrite (IH h2).
  destruct a as [[] [] [] [] [] [] [] []]; try reflexivity; discriminate.
Qed.
Lemma split2_app s t : noparen s -> split2 (s ++ ")(" ++ t) = s :: split2 t.
Proof.
  induction s as [|a s IH]; trivial. unfold noparen; simpl. rewrite andb_true_iff. intros [h1 h2].
  change (")(" ++ t) with (String ")" (String "(" t)) in IH. rewrite (IH h2).
  destruct a as [[] [] [] [] [] [] [] []]; try reflexivity; discriminate.
Qed.
Lemma drop_last_app s a : drop_last (s ++ String a "") = s.
Proof.
  induction s as [|b s IH]; trivial. simpl. rewrite IH. now destruct s.
Qed.
(* the text of a list of cycles, given the text of each cycle without its parentheses *)
Fixpoint between (l : list string) : string := match l with [] => "" | [w] => w | w :: l' => w ++ ")(" ++ between l' end.
Lemma between_ok l : l <> [] -> fold_right (fun w t => "(" ++ w ++ ")" ++ t) "" l = "(" ++ between l ++ ")".
Proof.
  induction l as [|w l IH]; [ easy | ]. intros _. destruct l as [|w' l]; [ reflexivity | ].
  change (between (w :: w' :: l)) with (w ++ ")(" ++ between (w' :: l)).
  change (fold_right _ _ _) with ("(" ++ w ++ ")" ++ fold_right (fun w t => "(" ++ w ++ ")" ++ t) "" (w' :: l)).
  rewrite IH by discriminate. now rewrite !app_assoc'.
Qed.
Lemma inner_between l : l <> [] -> inner (fold_right (fun w t => "(" ++ w ++ ")" ++ t) "" l) = between l.
Proof. intros h. rewrite between_ok by trivial. apply drop_last_app. Qed.
Lemma split2_between l : l <> [] -> Forall noparen l -> split2 (between l) = l.
Proof.
  intros h hl; revert h; induction hl as [|w l hw hl IH]; [ easy | ]. intros _. destruct l as [|w' l].
  - now apply split2_none.
  - change (between (w :: w' :: l)) with (w ++ ")(" ++ between (w' :: l)). rewrite split2_app by trivial. now rewrite IH by discriminate.
Qed.

Lemma decz_all (p : ascii -> bool) z : (forall a, is_digit a = true -> p a = false) -> p "-"%char = false ->
  all_chars (fun a => negb (p a)) (decz z) = true.
Proof.
  intros h1 h2. assert (h : forall n, all_chars (fun a => negb (p a)) (dec n) = true) by (intros n; apply digits_avoid; [ exact h1 | apply dec_digits ]).
  destruct z; [ | apply h | ].
  - simpl. now rewrite (h1 "0"%char).
  - change (decz (Z.neg p0)) with (String "-" (dec (N.pos p0))). simpl. now rewrite h2, h.
Qed.
Lemma join_all (p : ascii -> bool) sep l : all_chars (fun a => negb (p a)) sep = true ->
  (forall w, In w l -> all_chars (fun a => negb (p a)) w = true) -> all_chars (fun a => negb (p a)) (join sep l) = true.
Proof.
  intros hs. induction l as [|w l IH]; trivial. intros h. destruct l as [|w' l].
  - simpl. apply h. now left.
  - change (join sep (w :: w' :: l)) with (w ++ sep ++ join sep (w' :: l)). rewrite !all_app, hs, IH, (h w); trivial.
    + now left.
    + intros x hx; apply h; now right.
Qed.
Lemma cycle_noparen sep c : noparen sep -> noparen (join sep (map decz c)).
Proof.
  intros h. apply join_all; trivial. intros w hw. apply in_map_iff in hw as [z [<- _]].
  apply decz_all; [ | reflexivity ]. intros a; destruct a as [[] [] [] [] [] [] [] []]; simpl; trivial; discriminate.
Qed.
Lemma join_nonempty sep c : c <> [] -> join sep (map decz c) <> "".
Proof.
  destruct c as [|z c]; [ easy | intros _ ]. destruct (decz_word z) as [_ h]. destruct c as [|z' c]; [ exact h | ].
  change (join sep (map decz (z :: z' :: c))) with (decz z ++ sep ++ join sep (map decz (z' :: c))).
  destruct (decz z); [ easy | discriminate ].
Qed.
Lemma parse_cycle c : c <> [] -> all_some (map int_of (split is_comma (join "," (map decz c)))) = Some c.
Proof.
  intros hc. rewrite (split_join is_comma ","); trivial.
  - apply all_some_ok. exact int_of_decz.
  - destruct c; [ easy | discriminate ].
  - apply Forall_forall. intros w hw. apply in_map_iff in hw as [z [<- _]].
    apply decz_all; [ | reflexivity ]. intros a; destruct a as [[] [] [] [] [] [] [] []]; simpl; trivial; discriminate.
Qed.
Lemma shift_back c : map (fun i => (i - 1)%Z) (map (fun i => (i + 1)%Z) c) = c.
Proof. rewrite map_map. induction c as [|z c IH]; simpl; trivial. rewrite IH. f_equal. lia. Qed.
Lemma shift_backs l : map (map (fun i => (i - 1)%Z)) (map (map (fun i => (i + 1)%Z)) l) = l.
Proof. induction l as [|c l IH]; trivial. simpl. now rewrite IH, shift_back. Qed.

Lemma filter_all {A} (p : A -> bool) l : (forall x, In x l -> p x = true) -> filter p l = l.
Proof. induction l as [|x l IH]; trivial. intros h. simpl. rewrite (h x) by now left. rewrite IH; trivial. intros y hy; apply h; now right. Qed.
Lemma all_some_map {A B} (f : A -> option B) (g : B -> A) l : (forall x, In x l -> f (g x) = Some x) -> all_some (map f (map g l)) = Some l.
Proof.
  induction l as [|x l IH]; intros h; trivial. simpl. rewrite h by now left. rewrite IH; trivial. intros y hy; apply h; now right.
Qed.

Theorem gap_line_ok cycles : Forall (fun c => c <> []) cycles -> gap_line (to_gap_cycles cycles) = Some cycles.
Proof.
  intros h. destruct cycles as [|c0 cs]; [ reflexivity | ]. set (cycles := c0 :: cs) in *.
  set (up := map (map (fun i => (i + 1)%Z)) cycles). set (ws := map (fun c => join "," (map decz c)) up).
  assert (e : to_gap_cycles cycles = fold_right (fun w t => "(" ++ w ++ ")" ++ t) "" ws).
  { unfold to_gap_cycles, ws, up, cycles. generalize (c0 :: cs). intros l. induction l as [|c l IH]; trivial.
    cbn [map fold_right]. rewrite <- IH. unfold to_gap_cycle. now rewrite !app_assoc'. }
  assert (hup : Forall (fun c => c <> []) up).
  { unfold up. apply Forall_forall. intros c hc. apply in_map_iff in hc as [c' [<- hc']]. rewrite Forall_forall in h.
    apply h in hc'. destruct c'; [ easy | discriminate ]. }
  unfold gap_line. rewrite e, inner_between by discriminate. rewrite split2_between; [ | discriminate | ].
  2: { apply Forall_forall. intros w hw. apply in_map_iff in hw as [c [<- _]]. now apply cycle_noparen. }
  rewrite filter_all.
  2: { intros w hw. apply in_map_iff in hw as [c [<- hc]]. rewrite Forall_forall in hup. apply hup in hc.
       apply (join_nonempty ",") in hc. apply negb_true_iff. now apply String.eqb_neq. }
  unfold ws. rewrite all_some_map.
  2: { intros c hc. apply parse_cycle. rewrite Forall_forall in hup. now apply hup. }
  unfold option_map, up. now rewrite shift_backs.
Qed.

Lemma cycles_nobreak cycles : nobreak (to_gap_cycles cycles).
Proof.
  assert (hb : forall c, nobreak (to_gap_cycle c)).
  { intros c. unfold to_gap_cycle. apply nobreak_app; [ reflexivity | ]. apply nobreak_app; [ | reflexivity ].
    apply join_all; [ reflexivity | ]. intros w hw. apply in_map_iff in hw as [z [<- _]]. apply nobreak_decz. }
  destruct cycles as [|c cs]; [ reflexivity | ]. unfold to_gap_cycles. generalize (c :: cs). intros l.
  induction l as [|c' l IH]; [ reflexivity | ]. exact (nobreak_app _ _ (hb c') IH).
Qed.
Lemma cycles_blank cycles : blank (to_gap_cycles cycles) = false.
Proof. destruct cycles as [|c cs]; reflexivity. Qed.

Theorem gap_ok gens : Forall (Forall (fun c => c <> [])) gens -> gap_generators (gap_print gens) = Some gens.
Proof.
  intros h. unfold gap_generators, gap_print. rewrite splitlines_write.
  2: { apply Forall_forall. intros l hl. apply in_map_iff in hl as [c [<- _]]. apply cycles_nobreak. }
  rewrite filter_all.
  2: { intros l hl. apply in_map_iff in hl as [c [<- _]]. now rewrite cycles_blank. }
  apply all_some_map. intros c hc. apply gap_line_ok. rewrite Forall_forall in h. now apply h.
Qed.

Theorem groupnames_ok cycles : cycles <> [] -> groupnames_generator (groupnames_print cycles) = Some cycles.
Proof.
  intros h. unfold groupnames_generator, groupnames_print.
  set (up := map (map (fun i => (i + 1)%Z)) cycles). set (ws := map (fun c => join " " (map decz c)) up).
  assert (e : fold_right (fun c t => "(" ++ join " " (map decz (map (fun i => (i + 1)%Z) c)) ++ ")" ++ t) "" cycles =
              fold_right (fun w t => "(" ++ w ++ ")" ++ t) "" ws).
  { unfold ws, up. clear. induction cycles as [|c l IH]; trivial. cbn [map fold_right]. now rewrite <- IH. }
  assert (hne : ws <> []) by (unfold ws, up; destruct cycles; [ easy | discriminate ]).
  rewrite e, inner_between by trivial. rewrite split2_between; trivial.
  2: { apply Forall_forall. intros w hw. apply in_map_iff in hw as [c [<- _]]. now apply cycle_noparen. }
  unfold ws. rewrite all_some_map.
  2: { intros c hc. apply parse_row. }
  unfold option_map, up. now rewrite shift_backs.
Qed.

(* ---------------------------------------------------------------------------------------- codes from GAP *)
(* qldpc/external/codes.py:25-70 *)
(* the longest prefix of digits, and the rest *)
Fixpoint take_digits (s : string) : string * string :=
  match s with
  | EmptyString => ("", "")
  | String a s' => if is_digit a then let (d, r) := take_digits s' in (String a d, r) else ("", s)
  end.
(* re.match(r"GF\(([0-9]+(\^[0-9]+)?)\)", s): the base and the exponent ("1" if there is none) *)
Definition match_gf (s : string) : option (string * string) :=
  match s with
  | String "G" (String "F" (String "(" s1)) =>
      let (d, r) := take_digits s1 in
      if d =? "" then None else
      match r with
      | String ")" _ => Some (d, "1")
      | String "^" r1 =>
          let (e, r2) := take_digits r1 in
          if e =? "" then None else match r2 with String ")" _ => Some (d, e) | _ => None end
      | _ => None
      end
  | _ => None
  end.
(* re.search *)
Fixpoint search_gf (s : string) : option (string * string) :=
  match match_gf s with
  | Some m => Some m
  | None => match s with EmptyString => None | String _ s' => search_gf s' end
  end.
Fixpoint lstrip_all (s : string) : string := match s with String a s' => if is_space a then lstrip_all s' else s | _ => s end.
(* s.strip() *)
Fixpoint rev_string (s : string) : string := match s with EmptyString => "" | String a s' => rev_string s' ++ String a "" end.
Definition strip (s : string) : string := rev_string (lstrip_all (rev_string (lstrip_all s))).
(* ast.literal_eval on a list of integers written between brackets; other literals are not modelled (None) *)
Definition literal_list (s : string) : option (list Z) :=
  match strip s with
  | String "[" t =>
      match rev_string t with
      | String "]" u => let body := rev_string u in
          if blank body then Some [] else all_some (map (fun w => int_of (strip w)) (split is_comma body))
      | _ => None
      end
  | _ => None
  end.
(* codes.py:55-66: the loop over the lines; None is an exception *)
Fixpoint code_loop (lines : list string) (field : option Z) (checks : list (list Z)) : option (option Z * list (list Z)) :=
  match lines with
  | [] => Some (field, checks)
  | line :: lines' =>
      if blank line then code_loop lines' field checks
      else match field, search_gf line with
           | None, Some (b, e) =>
               match int_of b, int_of e with Some b', Some e' => code_loop lines' (Some (b' ^ e')%Z) checks | _, _ => None end
           | _, _ => match literal_list line with Some c => code_loop lines' field (checks ++ [c]) | None => None end
           end
  end.
(* codes.py:25-70: get_code, from the output of GAP *)
Definition get_code (text : string) : option (list (list Z) * option Z) :=
  match code_loop (splitlines text) None [] with
  | Some (field, checks) => match checks with [] => None | _ => Some (checks, field) end
  | None => None
  end.

(* GAP's notation for finite fields and for lists of integers *)
Definition gap_field (p k : N) : string := if N.eqb k 1 then "GF(" ++ dec p ++ ")" else "GF(" ++ dec p ++ "^" ++ dec k ++ ")".
Definition gap_list (l : list Z) : string := "[ " ++ join ", " (map decz l) ++ " ]".
Definition gap_code (p k : N) (checks : list (list Z)) : string := write (gap_field p k :: map gap_list checks).

Lemma take_digits_app d a r : all_chars is_digit d = true -> is_digit a = false -> take_digits (d ++ String a r) = (d, String a r).
Proof.
  intros h ha. induction d as [|b d IH]; simpl in *; [ now rewrite ha | ].
  rewrite andb_true_iff in h. destruct h as [h1 h2]. now rewrite h1, (IH h2).
Qed.
Lemma dec_eqb k : (dec k =? "") = false.
Proof. apply String.eqb_neq, dec_nonempty. Qed.
Lemma search_field p k : search_gf (gap_field p k) = Some (dec p, dec k).
Proof.
  assert (e : match_gf (gap_field p k) = Some (dec p, dec k)).
  { unfold gap_field. destruct (N.eqb_spec k 1) as [-> | _].
    - change ("GF(" ++ dec p ++ ")") with (String "G" (String "F" (String "(" (dec p ++ String ")" "")))).
      cbn [match_gf]. rewrite take_digits_app; [ | apply dec_digits | reflexivity ]. now rewrite dec_eqb.
    - change ("GF(" ++ dec p ++ "^" ++ dec k ++ ")") with (String "G" (String "F" (String "(" (dec p ++ String "^" (dec k ++ String ")" ""))))).
      cbn [match_gf]. rewrite take_digits_app; [ | apply dec_digits | reflexivity ]. rewrite dec_eqb.
      rewrite take_digits_app; [ | apply dec_digits | reflexivity ]. now rewrite dec_eqb. }
  destruct (gap_field p k) as [|a s]; [ discriminate | ]. cbn [search_gf]. now rewrite e.
Qed.

Lemma rev_app a b : rev_string (a ++ b) = rev_string b ++ rev_string a.
Proof. induction a as [|x a IH]; simpl; [ now rewrite app_empty | ]. now rewrite IH, app_assoc'. Qed.
Lemma rev_rev s : rev_string (rev_string s) = s.
Proof. induction s as [|x a IH]; trivial. simpl. now rewrite rev_app, IH. Qed.
Lemma all_rev p s : all_chars p (rev_string s) = all_chars p s.
Proof. induction s as [|x a IH]; trivial. simpl. rewrite all_app, IH. simpl. rewrite andb_true_r. apply andb_comm. Qed.
Lemma lstrip_app a s : all_chars is_space a = true -> lstrip_all (a ++ s) = lstrip_all s.
Proof. induction a as [|x a IH]; trivial. simpl. rewrite andb_true_iff. intros [h1 h2]. now rewrite h1, IH. Qed.
Lemma lstrip_none s : all_chars (fun a => negb (is_space a)) s = true -> lstrip_all s = s.
Proof. destruct s as [|x a]; trivial. simpl. rewrite andb_true_iff, negb_true_iff. intros [h1 h2]. now rewrite h1. Qed.
Lemma strip_word a w b : all_chars is_space a = true -> all_chars is_space b = true ->
  all_chars (fun a => negb (is_space a)) w = true -> w <> "" -> strip (a ++ w ++ b) = w.
Proof.
  intros ha hb hw hne. unfold strip. rewrite lstrip_app by trivial.
  assert (e : lstrip_all (w ++ b) = w ++ b).
  { destruct w as [|x w]; [ easy | ]. simpl in *. rewrite andb_true_iff, negb_true_iff in hw. destruct hw as [h1 _]. now rewrite h1. }
  rewrite e, rev_app, lstrip_app by now rewrite all_rev.
  rewrite lstrip_none by now rewrite all_rev. apply rev_rev.
Qed.
Lemma parse_list l : literal_list (gap_list l) = Some l.
Proof.
  set (body := join ", " (map decz l)).
  assert (es : strip (gap_list l) = gap_list l).
  { unfold strip. change (lstrip_all (gap_list l)) with (gap_list l). unfold gap_list. fold body.
    change ("[ " ++ body ++ " ]") with ("[" ++ (" " ++ body ++ " ]")).
    rewrite !rev_app. change (rev_string " ]") with ("] "). rewrite !app_assoc'. 
    change (lstrip_all ("] " ++ rev_string body ++ rev_string " " ++ rev_string "["))
      with ("] " ++ rev_string body ++ rev_string " " ++ rev_string "[").
    rewrite !rev_app, !rev_rev, !app_assoc'. reflexivity. }
  unfold literal_list. rewrite es. unfold gap_list. fold body.
  change ("[ " ++ body ++ " ]") with (String "[" (" " ++ body ++ " ]")). cbv iota beta.
  assert (er : rev_string (" " ++ body ++ " ]") = String "]" (rev_string (" " ++ body ++ " "))).
  { rewrite !rev_app. reflexivity. }
  rewrite er. rewrite rev_rev.
  destruct l as [|z l]; [ reflexivity | ].
  assert (eb : blank (" " ++ body ++ " ") = false).
  { unfold blank. rewrite !all_app. unfold body. destruct (decz_word z) as [h1 h2].
    assert (e : exists a t, join ", " (map decz (z :: l)) = String a t /\ is_space a = false).
    { destruct (decz z) as [|a s] eqn:ez; [ easy | ]. simpl in h1. rewrite andb_true_iff, negb_true_iff in h1. destruct h1 as [h1 _].
      destruct l as [|z' l]; [ exists a, s; simpl; now rewrite ez | ].
      exists a, (s ++ ", " ++ join ", " (map decz (z' :: l))). cbn [map join]. now rewrite ez. }
    destruct e as [a [t [-> e]]]. simpl. now rewrite e. }
  rewrite eb.
  assert (hc : Forall (fun s => all_chars (fun a => negb (is_comma a)) s = true) (map decz (z :: l))).
  { apply Forall_forall. intros w hw. apply in_map_iff in hw as [y [<- _]].
    apply decz_all; [ | reflexivity ]. intros a; destruct a as [[] [] [] [] [] [] [] []]; simpl; trivial; discriminate. }
  assert (est : forall y a b, all_chars is_space a = true -> all_chars is_space b = true -> int_of (strip (a ++ decz y ++ b)) = Some y).
  { intros y a b h1 h2. destruct (decz_word y) as [h3 h4]. rewrite strip_word by trivial. apply int_of_decz. }
  assert (esp : forall zs pre, pre = "" \/ pre = " " -> zs <> [] ->
    Forall (fun s => all_chars (fun a => negb (is_comma a)) s = true) (map decz zs) ->
    all_some (map (fun w => int_of (strip w)) (split is_comma (pre ++ join ", " (map decz zs) ++ " "))) = Some zs).
  { clear -est. intros zs. induction zs as [|y zs IH]; [ easy | ]. intros pre hp _ hf.
    assert (hps : all_chars is_space pre = true) by now destruct hp as [-> | ->].
    assert (hpc : all_chars (fun a => negb (is_comma a)) pre = true) by now destruct hp as [-> | ->].
    inversion_clear hf as [|? ? h1 h2]. destruct zs as [|y' zs].
    - cbn [map join]. rewrite split_none by (rewrite !all_app, hpc, h1; reflexivity).
      cbn [map all_some]. now rewrite est.
    - change (join ", " (map decz (y :: y' :: zs))) with (decz y ++ String "," (" " ++ join ", " (map decz (y' :: zs)))).
      replace (pre ++ (decz y ++ String "," (" " ++ join ", " (map decz (y' :: zs)))) ++ " ")
        with ((pre ++ decz y) ++ String "," (" " ++ join ", " (map decz (y' :: zs)) ++ " ")) by (rewrite !app_assoc'; reflexivity).
      rewrite split_app; [ | now rewrite all_app, hpc, h1 | reflexivity ].
      cbn [map all_some]. rewrite <- (app_empty (decz y)), est by trivial.
      change (decz y' :: map decz zs) with (map decz (y' :: zs)).
      rewrite (IH " ") by (try discriminate; auto). reflexivity. }
  apply esp; auto. discriminate.
Qed.

Lemma list_nobreak l : nobreak (gap_list l).
Proof.
  apply nobreak_app; [ reflexivity | ]. apply nobreak_app; [ | reflexivity ].
  apply join_all; [ reflexivity | ]. intros w hw. apply in_map_iff in hw as [z [<- _]]. apply nobreak_decz.
Qed.
Lemma nobreak_dec n : nobreak (dec n).
Proof. apply digits_avoid; [ exact digit_break | apply dec_digits ]. Qed.
Lemma field_nobreak p k : nobreak (gap_field p k).
Proof.
  unfold gap_field. destruct (N.eqb k 1); repeat (apply nobreak_app; [ reflexivity || apply nobreak_dec | ]); try reflexivity.
  all: apply nobreak_app; [ apply nobreak_dec | reflexivity ].
Qed.

Theorem get_code_ok p k checks : checks <> [] -> get_code (gap_code p k checks) = Some (checks, Some (Z.of_N (p ^ k))).
Proof.
  intros h. unfold get_code, gap_code. rewrite splitlines_write.
  2: { constructor; [ apply field_nobreak | ]. apply Forall_forall. intros l hl. apply in_map_iff in hl as [c [<- _]]. apply list_nobreak. }
  assert (eb : blank (gap_field p k) = false) by (unfold gap_field; now destruct (N.eqb k 1)).
  cbn [code_loop]. rewrite eb, search_field, !int_of_dec.
  assert (el : forall cs acc q, code_loop (map gap_list cs) (Some q) acc = Some (Some q, (acc ++ cs)%list)).
  { clear. intros cs. induction cs as [|c cs IH]; intros acc q; [ now rewrite app_nil_r | ].
    cbn [map code_loop]. change (blank (gap_list c)) with false. cbv iota. rewrite parse_list, IH, <- app_assoc. reflexivity. }
  rewrite el. cbn [List.app]. destruct checks; [ easy | ]. now rewrite N2Z.inj_pow.
Qed.

(* ------------------------------------------------------------------------- coefficients of idempotents *)
(* multiplication in galois.GF(2^n), whose elements are the integers 0 .. 2^n - 1, read as polynomials over GF(2) modulo the Conway
   polynomial; `poly` is that polynomial.  galois is not part of /repo *)
Fixpoint xmul (n : nat) (poly a b : N) : N :=
  match n with
  | O => 0
  | S n' => N.lxor (if N.testbit b (N.of_nat n') then N.shiftl a (N.of_nat n') else 0) (xmul n' poly a b)
  end.
Fixpoint xmod (n : nat) (deg : nat) (poly a : N) : N :=
  match n with
  | O => a
  | S n' => xmod n' deg poly (if N.testbit a (N.of_nat (n' + deg)) then N.lxor a (N.shiftl poly (N.of_nat n')) else a)
  end.
Definition gf_mul (deg : nat) (poly a b : N) : N := xmod deg deg poly (xmul deg poly a b).
Definition conway (deg : nat) : N := match deg with 1 => 3%N | 2 => 7%N | 3 => 11%N | 4 => 19%N | _ => 0%N end.
Fixpoint gf_pow (deg : nat) (a : N) (m : nat) : N := match m with O => 1 | S m' => gf_mul deg (conway deg) a (gf_pow deg a m') end.
(* galois.GF(2^n).primitive_element: the class of the polynomial X (1 in GF(2)) *)
Definition primitive (deg : nat) : N := if Nat.eqb deg 1 then 1 else 2.
(* groups.py:277-281: the coefficient Z(2^k)^m of an idempotent over GF(2^n): the integer of the element of GF(2^k) is used as the
   integer of an element of GF(2^n) *)
Definition coefficient (n k m : nat) : N := gf_pow k (primitive k) m.

(* on the fields with at most 16 elements the product is associative and commutative *)
Definition elements (n : nat) : list N := map N.of_nat (seq 0 (2 ^ n)).
Definition assoc_ok (n : nat) : bool :=
  forallb (fun a => forallb (fun b => N.ltb (gf_mul n (conway n) a b) (2 ^ N.of_nat n) &&
    forallb (fun c => N.eqb (gf_mul n (conway n) a (gf_mul n (conway n) b c)) (gf_mul n (conway n) (gf_mul n (conway n) a b) c)) (elements n))
    (elements n)) (elements n) && forallb (fun a => N.eqb (gf_mul n (conway n) 1 a) a) (elements n).
Lemma pow2_N n : N.of_nat (2 ^ n) = (2 ^ N.of_nat n)%N.
Proof.
  induction n as [|n IH]; [ reflexivity | ]. rewrite Nat2N.inj_succ, N.pow_succ_r', <- IH. cbn [Nat.pow]. lia.
Qed.
Lemma in_elements n a : In a (elements n) <-> (a < 2 ^ N.of_nat n)%N.
Proof.
  unfold elements. rewrite in_map_iff, <- pow2_N. split.
  - intros [k [<- hk]]. apply in_seq in hk. lia.
  - intros h. exists (N.to_nat a). split; [ apply N2Nat.id | ]. apply in_seq. lia.
Qed.
Lemma coefficient_mul n m m' : (n = 1 \/ n = 2 \/ n = 3 \/ n = 4) ->
  coefficient n n (m + m') = gf_mul n (conway n) (coefficient n n m) (coefficient n n m') /\ coefficient n 1 m = 1%N.
Proof.
  intros hn. split.
  2: { unfold coefficient. induction m as [|m IH]; trivial. cbn [gf_pow]. rewrite IH. reflexivity. }
  assert (ok : assoc_ok n = true) by (destruct hn as [-> | [-> | [-> | ->]]]; vm_compute; reflexivity).
  unfold assoc_ok in ok. rewrite andb_true_iff, !forallb_forall in ok. destruct ok as [ok1 ok2].
  assert (hp : In (primitive n) (elements n)) by (destruct hn as [-> | [-> | [-> | ->]]]; vm_compute; tauto).
  assert (hw : forall k, In (gf_pow n (primitive n) k) (elements n)).
  { intros k. induction k as [|k IH].
    - destruct hn as [-> | [-> | [-> | ->]]]; vm_compute; tauto.
    - cbn [gf_pow]. specialize (ok1 _ hp). rewrite forallb_forall in ok1. specialize (ok1 _ IH). rewrite andb_true_iff in ok1.
      apply in_elements. apply N.ltb_lt. apply ok1. }
  unfold coefficient. induction m as [|m IH].
  - cbn [plus gf_pow]. symmetry. apply N.eqb_eq. now apply ok2.
  - cbn [plus gf_pow]. rewrite IH. specialize (ok1 _ hp). rewrite forallb_forall in ok1. specialize (ok1 _ (hw m)).
    rewrite andb_true_iff in ok1. destruct ok1 as [_ ok1]. rewrite forallb_forall in ok1. apply N.eqb_eq. now apply ok1.
Qed.
