(* Reading idempotents printed by GAP: model of the regular expressions and loops in qldpc/external/groups.py:257-291. *)
From Coq Require Import String Ascii List ZArith NArith Lia Bool Arith.
From Verif Require Import Text QTSave GapText GroupNames.
Import ListNotations.
Open Scope string_scope.

(* ------------------------------------------------------------------------------------------------ model *)
(* Regular expressions as functions: all ways to match at the start of a string, as pairs of the text matched and the rest, in the
   order in which Python tries them (repetitions and options are greedy); the match is the first one *)
Definition matcher := string -> list (string * string).
Definition lit (a : ascii) : matcher :=
  fun s => match s with String b r => if Ascii.eqb a b then [(String a "", r)] else [] | _ => [] end.
(* one or more digits *)
Fixpoint digits (s : string) : list (string * string) :=
  match s with
  | String a s' => if is_digit a then (map (fun p => (String a (fst p), snd p)) (digits s') ++ [(String a "", s')])%list else []
  | "" => []
  end.
Definition glue (x : string) (p : string * string) : string * string := (x ++ fst p, snd p).
Definition cat (a b : matcher) : matcher := fun s => flat_map (fun p => map (glue (fst p)) (b (snd p))) (a s).
Definition cats (l : list matcher) : matcher := fold_right cat (fun s => [("", s)]) l.
Definition opt (a : matcher) : matcher := fun s => (a s ++ [("", s)])%list.
Definition alt (a b : matcher) : matcher := fun s => (a s ++ b s)%list.
(* zero or more times; the first argument bounds the number of times (no pattern below matches the empty text) *)
Fixpoint star_n (n : nat) (a : matcher) (s : string) : list (string * string) :=
  match n with
  | 0 => [("", s)]
  | S n' => (flat_map (fun p => map (glue (fst p)) (star_n n' a (snd p))) (a s) ++ [("", s)])%list
  end.
Definition star (a : matcher) : matcher := fun s => star_n (String.length s) a s.
Definition first (m : matcher) (s : string) : option (string * string) := hd_error (m s).
(* re.finditer and re.findall: the texts of the matches from left to right; the first argument bounds the number of steps *)
Fixpoint finditer_n (n : nat) (m : matcher) (s : string) : list string :=
  match n with
  | 0 => []
  | S n' => match s with
            | "" => []
            | String _ s' => match first m s with Some (x, r) => x :: finditer_n n' m r | None => finditer_n n' m s' end
            end
  end.
Definition finditer (m : matcher) (s : string) : list string := finditer_n (S (String.length s)) m s.

(* groups.py:257-261: the patterns *)
Definition power : matcher := cats [lit "^"; digits].
Definition coefficient : matcher := cats [lit "("; lit "Z"; lit "("; digits; opt power; lit ")"; opt power; lit ")"].
Definition cycle : matcher := alt (cats [lit "("; digits; star (cats [lit ","; digits]); lit ")"]) (cats [lit "("; lit ")"]).
Definition cycles : matcher := cats [cycle; star cycle].
Definition ring_term : matcher := cats [coefficient; lit "*"; cycles].
Definition ring_member : matcher := cats [ring_term; star (cats [lit "+"; ring_term])].

(* groups.py:267 and 276-280: the groups of the pattern for a coefficient, with "or 1" *)
Definition exponent (s : string) : list (string * string) := (flat_map (fun p => digits (snd p)) (lit "^" s) ++ [("1", s)])%list.
Definition components (s : string) : option (Z * Z * Z) :=
  hd_error
    (flat_map (fun b =>
     flat_map (fun p =>
     flat_map (fun k =>
     flat_map (fun c =>
     flat_map (fun m =>
     map (fun _ => (value (fst p), value (fst k), value (fst m))) (lit ")" (snd m)))
       (exponent (snd c))) (lit ")" (snd k))) (exponent (snd p))) (digits (snd b))) (cats [lit "("; lit "Z"; lit "("] s)).
Definition is_star (a : ascii) : bool := Ascii.eqb a "*".
(* groups.py:272-288: one term: the numbers p, k, m of its coefficient Z(p^k)^m and the cycles of its permutation.  None is an
   exception.  The conversion of the coefficient is modelled in GapText.v *)
Definition parse_term (t : string) : option ((Z * Z * Z) * list (list Z)) :=
  match split is_star t with
  | [c; y] =>
      match components c with
      | Some q => Some (q, map (fun w => map (fun d => (value d - 1)%Z) (finditer digits w)) (finditer cycle y))
      | None => None
      end
  | _ => None
  end.
(* groups.py:269-291 *)
Definition parse_idempotents (text : string) : option (list (list ((Z * Z * Z) * list (list Z)))) :=
  all_some (map (fun w => all_some (map parse_term (finditer ring_term w))) (finditer ring_member text)).

(* what GAP prints: a list of sums of terms (Z(p^k)^m)*(1,2)(3,4); exponents 1 are left out and the identity is () *)
Definition cycle_text (c : list N) : string := "(" ++ join "," (map (fun i => dec (i + 1)) c) ++ ")".
Definition perm_texts (cs : list (list N)) : list string := match cs with [] => ["()"] | _ => map cycle_text cs end.
Definition cc (l : list string) : string := fold_right append "" l.
Definition power_text (k : N) : string := if N.eqb k 1 then "" else "^" ++ dec k.
Definition coefficient_text (p k m : N) : string := "(Z(" ++ dec p ++ power_text k ++ ")" ++ power_text m ++ ")".
Record term := Term { t_p : N; t_k : N; t_m : N; t_perm : list (list N) }.
Definition term_text (t : term) : string := coefficient_text (t_p t) (t_k t) (t_m t) ++ "*" ++ cc (perm_texts (t_perm t)).
Definition member_text (ts : list term) : string := join "+" (map term_text ts).
Definition idempotents_text (ms : list (list term)) : string := "[ " ++ join ", " (map member_text ms) ++ " ]".

(* ------------------------------------------------------------------------------------------------ proofs *)
Inductive finds (m : matcher) : string -> list string -> Prop :=
| finds_end : finds m "" []
| finds_skip a s l : m (String a s) = [] -> finds m s l -> finds m (String a s) l
| finds_match x r l : x <> "" -> first m (x ++ r) = Some (x, r) -> finds m r l -> finds m (x ++ r) (x :: l).
Lemma finds_n m s l : finds m s l -> forall n, String.length s < n -> finditer_n n m s = l.
Proof.
  induction 1 as [|a s l h _ IH|x r l hx h _ IH]; intros [|n] hn; try lia; trivial.
  - cbn [finditer_n]. unfold first. rewrite h. apply IH. simpl in hn. lia.
  - destruct x as [|a x]; [ easy | ]. cbn [finditer_n append]. change (String a (x ++ r)) with (String a x ++ r).
    rewrite h, IH; trivial. rewrite length_app in hn. simpl in hn. lia.
Qed.
Lemma finds_ok m s l : finds m s l -> finditer m s = l.
Proof. intros h. apply (finds_n m s l h). lia. Qed.

Lemma lit_ok a r : first (lit a) (String a r) = Some (String a "", r).
Proof. unfold first, lit. now rewrite Ascii.eqb_refl. Qed.
Lemma lit_no a b r : a <> b -> lit a (String b r) = [].
Proof. intros h. unfold lit. now destruct (Ascii.eqb_spec a b). Qed.
Lemma digits_first d c r : d <> "" -> all_chars is_digit d = true -> is_digit c = false ->
  first digits (d ++ String c r) = Some (d, String c r).
Proof.
  intros hd h hc. unfold first. induction d as [|a d IH]; [ easy | ]. simpl in *. apply andb_true_iff in h. destruct h as [ha h].
  rewrite ha. destruct d as [|b d]; [ simpl; now rewrite hc | ]. specialize (IH ltac:(discriminate) h).
  destruct (digits (String b d ++ String c r)) as [|p l]; [ discriminate | ]. injection IH as ->. reflexivity.
Qed.
Lemma digits_ok n c r : is_digit c = false -> first digits (dec n ++ String c r) = Some (dec n, String c r).
Proof. apply digits_first; [ apply dec_nonempty | apply dec_digits ]. Qed.
Lemma hd_map {A B : Type} (f : A -> B) l x : hd_error l = Some x -> hd_error (map f l) = Some (f x).
Proof. destruct l; [ discriminate | ]. intros h. injection h as ->. reflexivity. Qed.
Lemma hd_app {A : Type} (l l' : list A) x : hd_error l = Some x -> hd_error (l ++ l')%list = Some x.
Proof. destruct l; [ discriminate | trivial ]. Qed.
Lemma hd_bind {A B : Type} (f : A -> list B) l x y : hd_error l = Some x -> hd_error (f x) = Some y -> hd_error (flat_map f l) = Some y.
Proof. destruct l; [ discriminate | ]. intros h1 h2. injection h1 as ->. simpl. now apply hd_app. Qed.
Lemma cat_ok (a b : matcher) s x t y r : first a s = Some (x, t) -> first b t = Some (y, r) -> first (cat a b) s = Some (x ++ y, r).
Proof. unfold first, cat. intros h1 h2. apply (hd_bind _ _ _ _ h1). exact (hd_map _ _ _ h2). Qed.
Lemma cat_no (a b : matcher) s : a s = [] -> cat a b s = [].
Proof. unfold cat. now intros ->. Qed.

Lemma star_n_ok (a : matcher) r : a r = [] -> forall xs n, List.length xs <= n ->
  (forall pre x post, xs = (pre ++ x :: post)%list -> first a (x ++ cc post ++ r) = Some (x, cc post ++ r)) ->
  first (star_n n a) (cc xs ++ r) = Some (cc xs, r).
Proof.
  intros hr xs. induction xs as [|x xs IH]; intros n hn h.
  - destruct n; simpl; trivial. unfold first. simpl. now rewrite hr.
  - destruct n as [|n]; [ simpl in hn; lia | ]. unfold first. cbn [star_n cc fold_right]. rewrite app_assoc'.
    change (fold_right append "" xs) with (cc xs). apply hd_app. apply (hd_bind _ _ _ _ (h [] x xs eq_refl)).
    cbn [fst snd]. apply (hd_map (glue x) _ (cc xs, r)). apply IH.
    + simpl in hn. lia.
    + intros pre y post e. apply (h (x :: pre) y post). now rewrite e.
Qed.
Lemma cc_len xs : (forall x, In x xs -> x <> "") -> List.length xs <= String.length (cc xs).
Proof.
  induction xs as [|x xs IH]; simpl; intros h; trivial. rewrite length_app.
  assert (h1 := IH (fun y hy => h y (or_intror hy))). assert (h2 := h x (or_introl eq_refl)).
  change (fold_right append "" xs) with (cc xs). destruct x; [ easy | simpl; lia ].
Qed.
Lemma star_ok (a : matcher) r xs : a r = [] -> (forall x, In x xs -> x <> "") ->
  (forall pre x post, xs = (pre ++ x :: post)%list -> first a (x ++ cc post ++ r) = Some (x, cc post ++ r)) ->
  first (star a) (cc xs ++ r) = Some (cc xs, r).
Proof.
  intros hr hx h. apply (star_n_ok a r hr xs); trivial. rewrite length_app. assert (h1 := cc_len xs hx). lia.
Qed.
Lemma join_cc s x l : join s (x :: l) = x ++ cc (map (fun y => s ++ y) l).
Proof.
  revert x. induction l as [|y l IH]; intros x; [ simpl; now rewrite app_empty | ].
  change (join s (x :: y :: l)) with (x ++ s ++ join s (y :: l)). rewrite (IH y). cbn [map cc fold_right].
  now rewrite !app_assoc'.
Qed.

(* cycles *)
Definition not_open (r : string) : Prop := match r with "" => True | String c _ => c <> "("%char end.
Lemma cycle_ok c r : c <> [] -> first cycle (cycle_text c ++ r) = Some (cycle_text c, r).
Proof.
  destruct c as [|i c]; [ easy | intros _ ]. unfold cycle, alt, cycle_text. cbn [map]. rewrite join_cc, map_map.
  set (xs := map (fun x => "," ++ dec (x + 1)) c). rewrite !app_assoc'.
  assert (e : first (cats [lit "("; digits; star (cats [lit ","; digits]); lit ")"]) ("(" ++ dec (i + 1) ++ cc xs ++ ")" ++ r) =
    Some ("(" ++ dec (i + 1) ++ cc xs ++ ")" ++ "", r)); [ | unfold first; rewrite app_empty in e; now apply hd_app ].
  assert (hd : exists d t, cc xs ++ ")" ++ r = String d t /\ is_digit d = false).
  { unfold xs. destruct c; simpl; do 2 eexists; now split. }
  unfold cats. cbn [fold_right]. apply (cat_ok _ _ _ "(" (dec (i + 1) ++ cc xs ++ ")" ++ r)); [ apply lit_ok | ].
  apply (cat_ok _ _ _ _ (cc xs ++ ")" ++ r)); [ destruct hd as (d & t & -> & hd); now apply digits_ok | ].
  apply (cat_ok _ _ _ _ (")" ++ r)).
  - apply star_ok.
    + reflexivity.
    + intros x hx. apply in_map_iff in hx. destruct hx as [y [<- _]]. discriminate.
    + intros pre x post h. assert (hx : In x xs) by (rewrite h; apply in_elt).
      assert (hp : forall y, In y post -> In y xs) by (intros y hy; rewrite h; apply in_or_app; right; now right).
      apply in_map_iff in hx. destruct hx as [y [<- _]]. rewrite !app_assoc'.
      assert (hd' : exists d t, cc post ++ ")" ++ r = String d t /\ is_digit d = false).
      { destruct post as [|z post]; [ do 2 eexists; now split | ].
        assert (hz := hp z (or_introl eq_refl)). apply in_map_iff in hz. destruct hz as [w [<- _]]. do 2 eexists; now split. }
      rewrite <- (app_empty (dec (y + 1))) at 2. unfold cats. cbn [fold_right].
      apply (cat_ok _ _ _ "," (dec (y + 1) ++ cc post ++ ")" ++ r)); [ apply lit_ok | ].
      apply (cat_ok _ _ _ _ (cc post ++ ")" ++ r)); [ destruct hd' as (d & t & -> & hd'); now apply digits_ok | reflexivity ].
  - apply (cat_ok _ _ _ ")" r); [ apply lit_ok | reflexivity ].
Qed.
Lemma cycle_empty r : first cycle ("()" ++ r) = Some ("()", r).
Proof. reflexivity. Qed.
Lemma cycle_none r : not_open r -> cycle r = [].
Proof. destruct r as [|c r]; trivial. intros h. unfold cycle, alt, cats. cbn [fold_right]. rewrite !cat_no; trivial; apply lit_no; congruence. Qed.
Definition good_perm (cs : list (list N)) : Prop := forall c, In c cs -> c <> [].
Lemma piece_ok cs x r : good_perm cs -> In x (perm_texts cs) -> x <> "" /\ first cycle (x ++ r) = Some (x, r).
Proof.
  intros h. destruct cs as [|c cs]; unfold perm_texts; cbv iota.
  - intros [<-|[]]. split; [ discriminate | apply cycle_empty ].
  - intros hx. apply in_map_iff in hx. destruct hx as [y [<- hy]]. split; [ discriminate | ]. apply cycle_ok. now apply h.
Qed.
Lemma perm_cons cs : exists x xs, perm_texts cs = x :: xs.
Proof. destruct cs; simpl; eauto. Qed.
Lemma cycles_ok cs r : good_perm cs -> not_open r -> first cycles (cc (perm_texts cs) ++ r) = Some (cc (perm_texts cs), r).
Proof.
  intros h hr. destruct (perm_cons cs) as (x & xs & e).
  assert (hp : forall y t, In y (x :: xs) -> y <> "" /\ first cycle (y ++ t) = Some (y, t)) by (intros y t hy; rewrite <- e in hy; now apply (piece_ok cs)).
  rewrite e. cbn [cc fold_right]. change (fold_right append "" xs) with (cc xs). rewrite app_assoc'.
  rewrite <- (app_empty (cc xs)) at 2. unfold cycles, cats. cbn [fold_right].
  apply (cat_ok _ _ _ x (cc xs ++ r)); [ apply hp; now left | ].
  apply (cat_ok _ _ _ _ r); [ | reflexivity ]. apply star_ok.
  - now apply cycle_none.
  - intros y hy. apply (hp y ""). now right.
  - intros pre y post ey. apply hp. right. rewrite ey. apply in_elt.
Qed.
Lemma cycles_found cs : good_perm cs -> finditer cycle (cc (perm_texts cs)) = perm_texts cs.
Proof.
  intros h. apply finds_ok. assert (hp := fun x r => piece_ok cs x r h).
  induction (perm_texts cs) as [|x xs IH]; [ constructor | ]. cbn [cc fold_right].
  destruct (hp x (cc xs) (or_introl eq_refl)) as [h1 h2]. apply finds_match; trivial. apply IH. intros y r hy. apply hp. now right.
Qed.
Lemma numbers_found c : finditer digits (cycle_text c) = map (fun i => dec (i + 1)) c.
Proof.
  apply finds_ok. unfold cycle_text. cbn [append]. apply finds_skip; [ reflexivity | ].
  change (join "," (map (fun i => dec (i + 1)) c) ++ ")") with (join "," (map (fun i => dec (i + 1)) c) ++ String ")" "").
  assert (E : finds digits (String ")" "") []) by (apply finds_skip; [ reflexivity | constructor ]).
  destruct c as [|i c]; [ exact E | ]. cbn [map]. rewrite join_cc, map_map, app_assoc'.
  revert i. induction c as [|j c IH]; intros i; cbn [map cc fold_right append].
  - apply finds_match; [ apply dec_nonempty | now apply digits_ok | exact E ].
  - apply finds_match; [ apply dec_nonempty | now apply digits_ok | ]. apply finds_skip; [ reflexivity | ].
    rewrite app_assoc'. apply IH.
Qed.

(* coefficients *)
Lemma power_ok k c r : is_digit c = false -> c <> "^"%char -> first (opt power) (power_text k ++ String c r) = Some (power_text k, String c r).
Proof.
  intros h1 h2. unfold power_text, opt, power. destruct (N.eqb k 1).
  - simpl append. unfold first, cats. cbn [fold_right]. rewrite cat_no; trivial. apply lit_no. congruence.
  - rewrite app_assoc'. assert (e : first (cats [lit "^"; digits]) ("^" ++ dec k ++ String c r) = Some ("^" ++ dec k ++ "", String c r)).
    { unfold cats. cbn [fold_right]. apply (cat_ok _ _ _ "^" (dec k ++ String c r)); [ apply lit_ok | ].
      apply (cat_ok _ _ _ _ (String c r)); [ now apply digits_ok | reflexivity ]. }
    rewrite app_empty in e. unfold first. now apply hd_app.
Qed.
Lemma exponent_ok k c r : is_digit c = false -> c <> "^"%char -> first exponent (power_text k ++ String c r) = Some (dec k, String c r).
Proof.
  intros h1 h2. unfold power_text, exponent. destruct (N.eqb_spec k 1) as [->|_].
  - simpl append. unfold first. rewrite lit_no by congruence. reflexivity.
  - rewrite app_assoc'. unfold first. apply hd_app. apply (hd_bind _ _ ("^", dec k ++ String c r)); [ apply lit_ok | now apply digits_ok ].
Qed.
Lemma power_start k c r : is_digit c = false -> exists d t, power_text k ++ String c r = String d t /\ is_digit d = false.
Proof. intros h. unfold power_text. destruct (N.eqb k 1); do 2 eexists; now split. Qed.
Lemma coefficient_ok p k m r : first coefficient (coefficient_text p k m ++ r) = Some (coefficient_text p k m, r).
Proof.
  unfold coefficient_text. rewrite !app_assoc'. cbn [append].
  destruct (power_start k ")" (power_text m ++ String ")" r) eq_refl) as (d & t & e & hd).
  assert (H : first coefficient (String "(" (String "Z" (String "(" (dec p ++ power_text k ++ String ")" (power_text m ++ String ")" r))))) =
    Some ("(" ++ "Z" ++ "(" ++ dec p ++ power_text k ++ ")" ++ power_text m ++ ")" ++ "", r)); [ | exact H ].
  unfold coefficient, cats. cbn [fold_right].
  eapply cat_ok; [ apply lit_ok | ]. eapply cat_ok; [ apply lit_ok | ]. eapply cat_ok; [ apply lit_ok | ].
  eapply cat_ok; [ rewrite e; now apply digits_ok | ]. rewrite <- e.
  eapply cat_ok; [ now apply power_ok | ]. eapply cat_ok; [ apply lit_ok | ].
  eapply cat_ok; [ now apply power_ok | ]. eapply cat_ok; [ apply lit_ok | reflexivity ].
Qed.
Lemma components_ok p k m : components (coefficient_text p k m) = Some (Z.of_N p, Z.of_N k, Z.of_N m).
Proof.
  unfold coefficient_text. destruct (power_start k ")" (power_text m ++ ")") eq_refl) as (d & t & e & hd).
  unfold components.
  apply (hd_bind _ _ ("(Z(", dec p ++ power_text k ++ ")" ++ power_text m ++ ")")); [ reflexivity | ]. cbn [snd fst].
  apply (hd_bind _ _ (dec p, power_text k ++ ")" ++ power_text m ++ ")")).
  { change (")" ++ power_text m ++ ")") with (String ")" (power_text m ++ ")")). rewrite e. now apply digits_ok. }
  cbn [snd fst]. apply (hd_bind _ _ (dec k, String ")" (power_text m ++ ")"))); [ now apply exponent_ok | ].
  cbn [snd fst]. apply (hd_bind _ _ (")", power_text m ++ ")")); [ apply lit_ok | ].
  cbn [snd fst]. apply (hd_bind _ _ (dec m, ")")); [ now apply exponent_ok | ].
  unfold value. cbn [snd fst]. now rewrite !int_of_dec.
Qed.

(* terms *)
Definition good_term (t : term) : Prop := good_perm (t_perm t).
Lemma term_ok t r : good_term t -> not_open r -> first ring_term (term_text t ++ r) = Some (term_text t, r).
Proof.
  intros h hr. unfold term_text. rewrite !app_assoc'. rewrite <- (app_empty (cc (perm_texts (t_perm t)))) at 2.
  unfold ring_term, cats. cbn [fold_right]. eapply cat_ok; [ apply coefficient_ok | ].
  eapply cat_ok; [ apply lit_ok | ]. eapply cat_ok; [ now apply cycles_ok | reflexivity ].
Qed.
Lemma term_no c r : c <> "("%char -> ring_term (String c r) = [].
Proof.
  intros h. unfold ring_term, coefficient, cats. cbn [fold_right]. do 2 apply cat_no. apply lit_no. congruence.
Qed.
Lemma term_nonempty t : term_text t <> "".
Proof. discriminate. Qed.
Definition good_end (r : string) : Prop := match r with "" => True | String c _ => c <> "("%char /\ c <> "+"%char end.
Lemma plus_open ts r : not_open r -> not_open (cc (map (fun y => "+" ++ y) ts) ++ r).
Proof. destruct ts; simpl; trivial. discriminate. Qed.
Lemma member_ok ts r : ts <> [] -> Forall good_term ts -> good_end r -> first ring_member (member_text ts ++ r) = Some (member_text ts, r).
Proof.
  intros hn hg hr. destruct hg as [|t ts ht hg]; [ easy | ]. unfold member_text. cbn [map]. rewrite join_cc.
  set (xs := map (fun y => "+" ++ y) (map term_text ts)).
  assert (ho : not_open r) by (destruct r; [ exact I | apply hr ]).
  rewrite !app_assoc'. rewrite <- (app_empty (cc xs)) at 2. unfold ring_member, cats. cbn [fold_right].
  eapply cat_ok; [ apply term_ok; trivial; now apply plus_open | ]. eapply cat_ok; [ | reflexivity ].
  apply star_ok.
  - destruct r as [|c r]; [ reflexivity | ]. apply cat_no, lit_no. destruct hr; congruence.
  - intros x hx. apply in_map_iff in hx. destruct hx as [y [<- _]]. discriminate.
  - intros pre x post e. assert (hx : In x xs) by (rewrite e; apply in_elt).
    apply in_map_iff in hx. destruct hx as [y [<- hy]]. apply in_map_iff in hy. destruct hy as [u [<- hu]].
    rewrite Forall_forall in hg. rewrite !app_assoc'. rewrite <- (app_empty (term_text u)) at 2.
    eapply cat_ok; [ apply lit_ok | ]. eapply cat_ok; [ apply term_ok; [ now apply hg | ] | reflexivity ].
    destruct post as [|z post]; [ exact ho | ].
    assert (hz : In z xs) by (rewrite e; apply in_or_app; right; right; now left).
    apply in_map_iff in hz. destruct hz as [w [<- _]]. discriminate.
Qed.
Lemma terms_found ts : ts <> [] -> Forall good_term ts -> finditer ring_term (member_text ts) = map term_text ts.
Proof.
  intros hn hg. apply finds_ok. unfold member_text. destruct ts as [|t ts]; [ easy | ]. clear hn. cbn [map]. rewrite join_cc.
  revert t hg. induction ts as [|u ts IH]; intros t hg; inversion hg as [|? ? ht hg']; subst; cbn [map cc fold_right].
  - apply finds_match; [ apply term_nonempty | now apply term_ok | constructor ].
  - apply finds_match; [ apply term_nonempty | apply term_ok; trivial; discriminate | ]. cbn [append].
    apply finds_skip; [ apply term_no; discriminate | ]. now apply IH.
Qed.
Lemma member_no c r : c <> "("%char -> ring_member (String c r) = [].
Proof. intros h. unfold ring_member, cats. cbn [fold_right]. now apply cat_no, term_no. Qed.
Lemma member_nonempty ts : ts <> [] -> member_text ts <> "".
Proof. destruct ts as [|t ts]; [ easy | intros _ ]. unfold member_text. cbn [map]. rewrite join_cc. discriminate. Qed.
Definition good_member (ts : list term) : Prop := ts <> [] /\ Forall good_term ts.
Lemma members_found ms : Forall good_member ms -> finditer ring_member (idempotents_text ms) = map member_text ms.
Proof.
  intros hg. apply finds_ok. unfold idempotents_text. cbn [append].
  apply finds_skip; [ apply member_no; discriminate | ]. apply finds_skip; [ apply member_no; discriminate | ].
  assert (E : finds ring_member " ]" []) by (repeat (apply finds_skip; [ apply member_no; discriminate | ]); constructor).
  destruct ms as [|m ms]; [ exact E | ]. cbn [map]. rewrite join_cc, app_assoc'.
  revert m hg. induction ms as [|u ms IH]; intros m hg; inversion hg as [|? ? [h1 h2] hg']; subst; cbn [map cc fold_right append].
  - apply finds_match; [ now apply member_nonempty | apply member_ok; trivial; split; discriminate | exact E ].
  - apply finds_match; [ now apply member_nonempty | apply member_ok; trivial; split; discriminate | ].
    do 2 (apply finds_skip; [ apply member_no; discriminate | ]). rewrite app_assoc'. now apply IH.
Qed.

(* one term *)
Definition nostar (s : string) : Prop := all_chars (fun a => negb (is_star a)) s = true.
Lemma nostar_app a b : nostar a -> nostar b -> nostar (a ++ b).
Proof. unfold nostar. intros h1 h2. now rewrite all_app, h1, h2. Qed.
Lemma nostar_dec n : nostar (dec n).
Proof.
  apply digits_avoid with (2 := dec_digits n). intros c hc.
  destruct (digit_char c hc) as [<-|[<-|[<-|[<-|[<-|[<-|[<-|[<-|[<-|[<-|[]]]]]]]]]]]; reflexivity.
Qed.
Lemma nostar_power k : nostar (power_text k).
Proof. unfold power_text. destruct (N.eqb k 1); [ reflexivity | ]. apply nostar_app; [ reflexivity | apply nostar_dec ]. Qed.
Lemma nostar_cycle c : nostar (cycle_text c).
Proof.
  unfold cycle_text. repeat apply nostar_app; try reflexivity. apply join_all; [ reflexivity | ].
  intros w hw. apply in_map_iff in hw. destruct hw as [i [<- _]]. apply nostar_dec.
Qed.
Lemma nostar_perm cs : nostar (cc (perm_texts cs)).
Proof.
  destruct cs as [|c cs]; [ reflexivity | ]. unfold perm_texts. induction (c :: cs) as [|x l IH]; [ reflexivity | ].
  cbn [map cc fold_right]. apply nostar_app; [ apply nostar_cycle | exact IH ].
Qed.
(* what is read: the identity has one empty cycle *)
Definition meant_perm (cs : list (list N)) : list (list Z) := match cs with [] => [[]] | _ => map (map Z.of_N) cs end.
Definition meant (t : term) : (Z * Z * Z) * list (list Z) := ((Z.of_N (t_p t), Z.of_N (t_k t), Z.of_N (t_m t)), meant_perm (t_perm t)).
Lemma parse_term_ok t : good_term t -> parse_term (term_text t) = Some (meant t).
Proof.
  intros h. unfold parse_term, term_text.
  change ("*" ++ cc (perm_texts (t_perm t))) with (String "*" (cc (perm_texts (t_perm t)))).
  rewrite split_app; [ | | reflexivity ].
  - rewrite split_none by apply nostar_perm. rewrite components_ok, cycles_found by trivial. unfold meant. repeat f_equal.
    destruct (t_perm t) as [|c cs]; [ reflexivity | ]. unfold perm_texts, meant_perm. rewrite map_map. apply map_ext. intros x.
    rewrite numbers_found, map_map. apply map_ext. intros i. unfold value. rewrite int_of_dec. lia.
  - unfold coefficient_text. repeat apply nostar_app; try reflexivity; try apply nostar_dec; apply nostar_power.
Qed.
Lemma all_some_map {A B : Type} (f : A -> option B) (g : A -> B) l : (forall x, In x l -> f x = Some (g x)) -> all_some (map f l) = Some (map g l).
Proof.
  induction l as [|x l IH]; simpl; trivial. intros h. rewrite (h x (or_introl eq_refl)), IH; trivial.
  intros y hy. apply h. now right.
Qed.
Lemma parse_ok ms : Forall good_member ms -> parse_idempotents (idempotents_text ms) = Some (map (map meant) ms).
Proof.
  intros h. unfold parse_idempotents. rewrite members_found by trivial. rewrite map_map. apply all_some_map.
  intros ts hts. rewrite Forall_forall in h. destruct (h ts hts) as [h1 h2]. rewrite terms_found by trivial. rewrite map_map.
  apply all_some_map. intros t ht. apply parse_term_ok. rewrite Forall_forall in h2. now apply h2.
Qed.
