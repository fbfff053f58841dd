(* The text that describes the automorphism group of a classical code: model of qldpc/codes/common.py:555-566, with the
   standardization of names in qldpc/abstract.py:403-409. *)
From Coq Require Import String Ascii List ZArith NArith Lia Bool.
From Verif Require Import Text QTSave GapText GroupNames.
Import ListNotations.
Open Scope string_scope.

(* ------------------------------------------------------------------------------------------------ model *)
(* common.py:562: one row of the matrix; entries are the integers that galois uses for field elements *)
Definition row_text (r : list N) : string := "[" ++ join "," (map dec r) ++ "]".
(* common.py:563: the matrix *)
Definition matrix_text (m : list (list N)) : string := "[" ++ join "," (map row_text m) ++ "]".
(* common.py:564-566: the name of the automorphism group, where m is the canonicalized matrix and q the order of the field *)
Definition aut_text (q : N) (m : list (list N)) : string :=
  (if N.eqb q 2 then "AutomorphismGroup" else "PermutationAutomorphismGroup") ++ "(" ++
  "CheckMatCode(" ++ matrix_text m ++ ", GF(" ++ dec q ++ "))" ++ ")".
(* common.py:566 and abstract.py:405-408: the name under which the generators are looked up *)
Definition aut_query (q : N) (m : list (list N)) : string := standard_name (aut_text q m).

(* ------------------------------------------------------------------------------------------------ proofs *)
Lemma no_spaces_app a b : no_spaces (a ++ b) = no_spaces a ++ no_spaces b.
Proof. induction a as [|x a IH]; simpl; trivial. destruct (Ascii.eqb x " "); simpl; now rewrite IH. Qed.
Definition nospace (s : string) : Prop := all_chars (fun a => negb (is_space a)) s = true.
Lemma nospace_app a b : nospace a -> nospace b -> nospace (a ++ b).
Proof. unfold nospace. intros h1 h2. now rewrite all_app, h1, h2. Qed.
Lemma nospace_dec n : nospace (dec n).
Proof.
  apply digits_avoid with (2 := dec_digits n). intros c hc.
  destruct (digit_char c hc) as [<-|[<-|[<-|[<-|[<-|[<-|[<-|[<-|[<-|[<-|[]]]]]]]]]]]; reflexivity.
Qed.
Lemma nospace_join l : Forall nospace l -> nospace (join "," l).
Proof.
  induction 1 as [|w l h hl IH]; [ reflexivity | ]. destruct l as [|w' l]; [ exact h | ].
  change (join "," (w :: w' :: l)) with (w ++ "," ++ join "," (w' :: l)). repeat apply nospace_app; trivial; reflexivity.
Qed.
Lemma nospace_matrix m : nospace (matrix_text m).
Proof.
  unfold matrix_text. repeat apply nospace_app; try reflexivity. apply nospace_join. apply Forall_forall. intros s hs.
  apply in_map_iff in hs. destruct hs as [r [<- _]]. unfold row_text. repeat apply nospace_app; try reflexivity.
  apply nospace_join. apply Forall_forall. intros t ht. apply in_map_iff in ht. destruct ht as [n [<- _]]. apply nospace_dec.
Qed.
(* text between two words is not changed by strip *)
Lemma strip_ends a w b : is_space a = false -> is_space b = false -> strip (String a (w ++ String b "")) = String a (w ++ String b "").
Proof.
  intros ha hb. unfold strip. cbn [lstrip_all]. rewrite ha.
  change (String a (w ++ String b "")) with (String a w ++ String b ""). rewrite rev_app.
  change (rev_string (String b "")) with (String b ""). cbn [append lstrip_all]. rewrite hb.
  change (String b (rev_string (String a w))) with (rev_string (String b "") ++ rev_string (String a w)).
  rewrite <- rev_app. apply rev_rev.
Qed.
Lemma aut_query_eq q m : aut_query q m =
  (if N.eqb q 2 then "AutomorphismGroup" else "PermutationAutomorphismGroup") ++ "(CheckMatCode(" ++ matrix_text m ++ ",GF(" ++ dec q ++ ")))".
Proof.
  unfold aut_query, standard_name, aut_text.
  set (t := if N.eqb q 2 then _ else _). set (B := matrix_text m).
  assert (e : exists w, t ++ "(" ++ "CheckMatCode(" ++ B ++ ", GF(" ++ dec q ++ "))" ++ ")" = String (if N.eqb q 2 then "A" else "P")%char (w ++ String ")" "")).
  { unfold t. destruct (N.eqb q 2).
    - exists ("utomorphismGroup" ++ "(" ++ "CheckMatCode(" ++ B ++ ", GF(" ++ dec q ++ "))"). rewrite !app_assoc'. reflexivity.
    - exists ("ermutationAutomorphismGroup" ++ "(" ++ "CheckMatCode(" ++ B ++ ", GF(" ++ dec q ++ "))"). rewrite !app_assoc'. reflexivity. }
  destruct e as [w e]. rewrite e, strip_ends, <- e by (destruct (N.eqb q 2); reflexivity).
  rewrite !no_spaces_app. rewrite (no_spaces_none B) by apply nospace_matrix. rewrite (no_spaces_none (dec q)) by apply nospace_dec.
  unfold t. destruct (N.eqb q 2); simpl; rewrite ?app_assoc'; reflexivity.
Qed.

(* what the text determines *)
Lemma row_inj r r' x x' : row_text r ++ x = row_text r' ++ x' -> r = r' /\ x = x'.
Proof.
  unfold row_text. rewrite !app_assoc'. intros h. apply app_inj in h.
  assert (H : forall r r', join "," (map dec r) ++ "]" ++ x = join "," (map dec r') ++ "]" ++ x' -> r = r' /\ x = x').
  { clear. 
    assert (D : forall a l y, exists c z, join "," (map dec (a :: l)) ++ "]" ++ y = dec a ++ String c z /\ is_digit c = false /\
      ((l = [] /\ c = "]"%char /\ z = y) \/ (l <> [] /\ c = ","%char /\ z = join "," (map dec l) ++ "]" ++ y))).
    { intros a [|b l] y.
      - exists "]"%char, y. split; [ reflexivity | ]. split; [ reflexivity | ]. left. auto.
      - exists ","%char, (join "," (map dec (b :: l)) ++ "]" ++ y). split; [ | split; [ reflexivity | right; repeat split; discriminate ] ].
        change (join "," (map dec (a :: b :: l))) with (dec a ++ "," ++ join "," (map dec (b :: l))). now rewrite !app_assoc'. }
    assert (E : forall a l y z, join "," (map dec (a :: l)) ++ "]" ++ y <> "]" ++ z).
    { intros a l y z e. destruct (D a l y) as [c [w [e1 _]]]. rewrite e1 in e.
      assert (e2 : take_digits (dec a ++ String c w) = take_digits ("]" ++ z)) by now rewrite e.
      destruct (D a l y) as [c' [w' [e1' [hc _]]]]. rewrite e1 in e1'.
      rewrite e1', take_digits_app in e2 by (trivial; apply dec_digits). simpl in e2. injection e2 as e2 _.
      exact (dec_nonempty a e2). }
    induction r as [|a r IH]; intros [|b r'].
    - simpl. intros h; injection h as h. auto.
    - intros h. symmetry in h. exfalso. exact (E b r' x' x h).
    - intros h. exfalso. exact (E a r x x' h).
    - intros h. destruct (D a r x) as [c [z [e1 [h1 k1]]]]. destruct (D b r' x') as [c' [z' [e2 [h2 k2]]]].
      rewrite e1, e2 in h. apply digits_split in h; trivial; try apply dec_digits. destruct h as [h3 h4].
      apply dec_inj in h3. injection h4 as h4 h5. subst b.
      destruct k1 as [[-> [-> ->]]|[n1 [-> ->]]], k2 as [[-> [-> ->]]|[n2 [-> ->]]]; try discriminate.
      + auto.
      + destruct (IH _ h5) as [-> ->]. auto. }
  exact (H _ _ h).
Qed.
Lemma matrix_inj m m' x x' : matrix_text m ++ x = matrix_text m' ++ x' -> m = m' /\ x = x'.
Proof.
  unfold matrix_text. rewrite !app_assoc'. intros h. apply app_inj in h. revert m' h.
  assert (D : forall a l y, join "," (map row_text (a :: l)) ++ "]" ++ y =
    row_text a ++ match l with [] => "]" ++ y | _ => "," ++ join "," (map row_text l) ++ "]" ++ y end).
  { intros a [|b l] y; [ reflexivity | ].
    change (join "," (map row_text (a :: b :: l))) with (row_text a ++ "," ++ join "," (map row_text (b :: l))). now rewrite !app_assoc'. }
  induction m as [|a m IH]; intros [|b m'].
  - simpl. intros h; injection h as h. auto.
  - rewrite D. unfold row_text. simpl. discriminate.
  - rewrite D. unfold row_text. simpl. discriminate.
  - rewrite !D. intros h. apply row_inj in h. destruct h as [-> h].
    destruct m as [|a' m], m' as [|b' m']; try (simpl in h; discriminate).
    + injection h as h. auto.
    + apply app_inj in h. destruct (IH _ h) as [e ->]. now rewrite e.
Qed.
Theorem query_inj q m q' m' : aut_query q m = aut_query q' m' -> q = q' /\ m = m'.
Proof.
  rewrite !aut_query_eq. intros h.
  assert (h' : "(CheckMatCode(" ++ matrix_text m ++ ",GF(" ++ dec q ++ ")))" = "(CheckMatCode(" ++ matrix_text m' ++ ",GF(" ++ dec q' ++ ")))").
  { destruct (N.eqb q 2), (N.eqb q' 2); try discriminate; now apply app_inj in h. }
  apply app_inj in h'. apply matrix_inj in h'. destruct h' as [-> h']. apply app_inj in h'.
  change (dec q ++ ")))") with (dec q ++ String ")" "))") in h'. change (dec q' ++ ")))") with (dec q' ++ String ")" "))") in h'.
  apply digits_split in h'; trivial; try apply dec_digits. destruct h' as [h' _]. split; trivial. now apply dec_inj.
Qed.
