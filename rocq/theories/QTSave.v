(* Saving, loading and comparing quantum Tanner codes: model of qldpc/codes/quantum.py:1145-1153 and 1244-1304. *)
From Coq Require Import String Ascii List ZArith Lia Bool.
From Verif Require Import Text.
Import ListNotations.
Open Scope string_scope.

(* ------------------------------------------------------------------------------------------------ model *)
(* the generating data of a QTCode: the subsets as lists of array forms, in the order in which python iterates over the sets, the
   matrices of the local codes, the order of the field and the flag.  Simplification: the number of columns of a matrix is that
   of its rows *)
Record qtdata := QT { qt_a : list (list Z); qt_b : list (list Z); qt_ma : list (list Z); qt_mb : list (list Z); qt_q : Z; qt_bip : bool }.

(* line boundaries of str.splitlines() among ASCII characters *)
Definition is_break (a : ascii) : bool :=
  let n := nat_of_ascii a in (Nat.leb 10 n && Nat.leb n 13) || (Nat.leb 28 n && Nat.leb n 30).
(* s.splitlines() *)
Fixpoint splitlines (s : string) : list string :=
  match s with
  | EmptyString => []
  | String a s' =>
      if is_break a then
        "" :: match s' with
              | String b s'' => if Nat.eqb (nat_of_ascii a) 13 && Nat.eqb (nat_of_ascii b) 10 then splitlines s'' else splitlines s'
              | EmptyString => []
              end
      else match splitlines s' with [] => [String a ""] | w :: ws => String a w :: ws end
  end.
Definition newline : ascii := ascii_of_nat 10.
(* np.savetxt(file, array, fmt="%d"): one line per row *)
Definition savetxt (m : list (list Z)) : list string := map (fun r => join " " (map decz r)) m.
(* quantum.py:1244-1274: QTCode.save, the lines written *)
Definition save_lines (headers : list string) (d : qtdata) : list string :=
  (map (fun l => ("# " ++ l)%string) (flat_map splitlines headers) ++
  ["# subset_a:"] ++ savetxt (qt_a d) ++ ["# subset_b:"] ++ savetxt (qt_b d) ++
  ["# code_a.matrix:"] ++ savetxt (qt_ma d) ++ ["# code_b.matrix:"] ++ savetxt (qt_mb d) ++
  [("# base field: " ++ decz (qt_q d))%string; ("# bipartite: " ++ (if qt_bip d then "True" else "False"))%string])%list.
Definition write (lines : list string) : string := fold_right (fun l t => l ++ String newline t) "" lines.
Definition save (headers : list string) (d : qtdata) : string := write (save_lines headers d).

(* s.lstrip(" ") (ast.literal_eval strips spaces and tabs) *)
Fixpoint lstrip (s : string) : string := match s with String " " s' => lstrip s' | _ => s end.
(* ast.literal_eval on integers and on booleans; other literals are not modelled (None) *)
Definition literal_int (s : string) : option Z := int_of (lstrip s).
Definition literal_bool (s : string) : option bool :=
  if lstrip s =? "True" then Some true else if lstrip s =? "False" then Some false else None.
(* line.split(":")[-1] *)
Definition after_colon (s : string) : string := last (split (fun a => Ascii.eqb a ":") s) "".
Fixpoint all_some {A : Type} (l : list (option A)) : option (list A) :=
  match l with [] => Some [] | None :: _ => None | Some x :: l' => option_map (cons x) (all_some l') end.
(* np.genfromtxt(lines, dtype=int, ndmin=2); a ValueError (rows of different lengths, or a word that is not a number) is None.
   Simplification: blank lines, which numpy skips, and comments inside a line are not modelled *)
Definition genfromtxt (lines : list string) : option (list (list Z)) :=
  match all_some (map (fun l => all_some (map int_of (words l))) lines) with
  | Some (r :: m) => if forallb (fun r' => Nat.eqb (length r') (length r)) m then Some (r :: m) else None
  | _ => None
  end.
Definition is_comment (s : string) : bool := match s with String "#" _ => true | _ => false end.
(* quantum.py:1289-1296: the loop over the lines; index is the index of the first line of `rest` *)
Fixpoint arrays_loop (lines : list string) (index last_index : nat) (rest : list string) (arrays : list (list (list Z))) :
    option (list (list (list Z))) :=
  match rest with
  | [] => Some arrays
  | line :: rest' =>
      if is_comment line then
        if Nat.ltb (last_index + 1) index then
          match genfromtxt (firstn (index - (last_index + 1)) (skipn (last_index + 1) lines)) with
          | Some array => arrays_loop lines (index + 1) index rest' (arrays ++ [array])
          | None => None
          end
        else arrays_loop lines (index + 1) index rest' arrays
      else arrays_loop lines (index + 1) last_index rest' arrays
  end.
(* quantum.py:1276-1304: QTCode.load, up to the call of QTCode(...); None is an exception *)
Definition load (text : string) : option qtdata :=
  let lines := splitlines text in
  if Nat.ltb (length lines) 2 then None else
  match literal_int (after_colon (nth (length lines - 2) lines "")),
        literal_bool (after_colon (nth (length lines - 1) lines "")),
        arrays_loop lines 0 0 lines [] with
  | Some q, Some bip, Some (a :: b :: ma :: mb :: _) => Some (QT a b ma mb q bip)
  | _, _, _ => None
  end.

(* common.py:220-226: ClassicalCode.__eq__ (np.array_equal) *)
Definition code_eq (q1 : Z) (m1 : list (list Z)) (q2 : Z) (m2 : list (list Z)) : bool :=
  (Z.eqb q1 q2) && (if list_eq_dec (list_eq_dec Z.eq_dec) m1 m2 then true else false).
(* set.__eq__ on sets listed as l1 and l2 *)
Definition set_eq (l1 l2 : list (list Z)) : bool :=
  let mem x l := existsb (fun y => if list_eq_dec Z.eq_dec x y then true else false) l in
  forallb (fun x => mem x l2) l1 && forallb (fun x => mem x l1) l2.
(* quantum.py:1145-1153: QTCode.__eq__; the other object is None if it is not a QTCode *)
Definition qt_eq (self : qtdata) (other : option qtdata) : bool :=
  match other with
  | None => false
  | Some o => code_eq (qt_q o) (qt_ma o) (qt_q o) (qt_ma o) && code_eq (qt_q o) (qt_mb o) (qt_q o) (qt_mb o)
              && set_eq (qt_a o) (qt_a o) && set_eq (qt_b o) (qt_b o) && Bool.eqb (qt_bip o) (qt_bip o)
  end.

(* ----------------------------------------------------------------------------------------------- proofs *)
Definition nobreak (s : string) : Prop := all_chars (fun a => negb (is_break a)) s = true.

Lemma splitlines_nobreak s : Forall nobreak (splitlines s).
Proof.
  remember (String.length s) as n eqn:e. assert (h : String.length s <= n) by lia. clear e.
  revert s h; induction n as [|n IH]; intros [|a s] h; simpl in h; try lia; try constructor.
  simpl. destruct (is_break a) eqn:hb.
  - constructor; [ reflexivity | ].
    destruct s as [|b s']; [ constructor | ]. simpl in h.
    destruct (_ && _); apply IH; simpl; lia.
  - assert (hl : Forall nobreak (splitlines s)) by (apply IH; lia).
    destruct (splitlines s) as [|w ws].
    + constructor; [ | constructor ]. unfold nobreak; simpl. now rewrite hb.
    + inversion_clear hl as [|? ? h1 h2]. constructor; trivial. unfold nobreak in *; simpl. now rewrite hb.
Qed.

Lemma splitlines_write lines : Forall nobreak lines -> splitlines (write lines) = lines.
Proof.
  induction 1 as [|l ls hl _ IH]; trivial. simpl write.
  assert (e : forall l t, nobreak l -> splitlines (l ++ String newline t) = l :: splitlines t).
  { clear. intros l t; induction l as [|a l IH]; intros h.
    - simpl. destruct t as [|b t]; trivial.
    - unfold nobreak in h; simpl in h. rewrite andb_true_iff, negb_true_iff in h. destruct h as [h1 h2].
      change (String a l ++ String newline t) with (String a (l ++ String newline t)).
      cbn [splitlines]. rewrite h1. rewrite (IH h2). reflexivity. }
  rewrite e by trivial. now rewrite IH.
Qed.

Lemma nobreak_app a b : nobreak a -> nobreak b -> nobreak (a ++ b).
Proof. unfold nobreak; intros h1 h2; rewrite all_app, h1, h2; reflexivity. Qed.
Lemma digit_break a : is_digit a = true -> is_break a = false.
Proof. destruct a as [[] [] [] [] [] [] [] []]; simpl; trivial; discriminate. Qed.
Lemma nobreak_decz z : nobreak (decz z).
Proof.
  assert (h : forall n, nobreak (dec n)) by (intros n; apply digits_avoid; [ exact digit_break | apply dec_digits ]).
  destruct z; simpl; [ reflexivity | apply h | ].
  change (nobreak ("-" ++ dec (N.pos p))). apply nobreak_app; [ reflexivity | apply h ].
Qed.
Lemma nobreak_join l : Forall nobreak l -> nobreak (join " " l).
Proof.
  induction 1 as [|w l h _ IH]; [ reflexivity | ]. destruct l as [|w' l]; trivial.
  change (join " " (w :: w' :: l)) with (w ++ " " ++ join " " (w' :: l)).
  apply nobreak_app; [ exact h | ]. apply nobreak_app; [ reflexivity | exact IH ].
Qed.
Lemma nobreak_savetxt m : Forall nobreak (savetxt m).
Proof.
  apply Forall_forall. intros l hl. apply in_map_iff in hl as [r [<- _]]. apply nobreak_join.
  apply Forall_forall. intros s hs. apply in_map_iff in hs as [z [<- _]]. apply nobreak_decz.
Qed.
Lemma nobreak_save headers d : Forall nobreak (save_lines headers d).
Proof.
  unfold save_lines. rewrite !Forall_app. repeat split; try apply nobreak_savetxt; try (repeat constructor; fail).
  - apply Forall_forall. intros l hl. apply in_map_iff in hl as [s [<- hs]]. apply in_flat_map in hs as [h [_ hs]].
    apply nobreak_app; [ reflexivity | ]. revert s hs. now apply Forall_forall, splitlines_nobreak.
  - constructor; [ apply (nobreak_app "# base field: "); [ reflexivity | apply nobreak_decz ] | ].
    constructor; [ | constructor ]. apply (nobreak_app "# bipartite: "); destruct (qt_bip d); reflexivity.
Qed.

(* rows *)
Lemma decz_word z : all_chars (fun a => negb (is_space a)) (decz z) = true /\ decz z <> "".
Proof.
  assert (h : forall n, all_chars (fun a => negb (is_space a)) (dec n) = true).
  { intros n. apply digits_avoid; [ | apply dec_digits ].
    intros a; destruct a as [[] [] [] [] [] [] [] []]; simpl; trivial; discriminate. }
  destruct z; simpl; [ now split | split; [ apply h | apply dec_nonempty ] | split; [ | discriminate ] ].
  change (all_chars (fun a => negb (is_space a)) ("-" ++ dec (N.pos p)) = true). rewrite all_app, h. reflexivity.
Qed.
Lemma all_some_ok {A B} (f : A -> option B) (g : B -> A) l : (forall x, f (g x) = Some x) -> all_some (map f (map g l)) = Some l.
Proof. intros h; induction l as [|x l IH]; simpl; trivial. now rewrite h, IH. Qed.
Lemma parse_row r : all_some (map int_of (words (join " " (map decz r)))) = Some r.
Proof.
  rewrite words_join.
  - apply all_some_ok. exact int_of_decz.
  - apply Forall_forall. intros s hs. apply in_map_iff in hs as [z [<- _]]. apply decz_word.
Qed.
Definition array (m : list (list Z)) : Prop := m <> [] /\ exists n, n <> 0 /\ Forall (fun r => length r = n) m.
Lemma genfromtxt_ok m : array m -> genfromtxt (savetxt m) = Some m.
Proof.
  intros [ne [n [_ h]]]. unfold genfromtxt, savetxt.
  rewrite (all_some_ok (fun l => all_some (map int_of (words l))) (fun r => join " " (map decz r))) by apply parse_row.
  destruct m as [|r m]; [ easy | ]. inversion_clear h as [|? ? h1 h2].
  assert (e : forallb (fun r' => Nat.eqb (length r') (length r)) m = true).
  { apply forallb_forall. intros x hx. rewrite Forall_forall in h2. apply Nat.eqb_eq. now rewrite (h2 x hx). }
  now rewrite e.
Qed.
Lemma savetxt_comment m : array m -> Forall (fun l => is_comment l = false) (savetxt m).
Proof.
  intros [_ [n [hn h]]]. apply Forall_forall. intros l hl. apply in_map_iff in hl as [r [<- hr]].
  rewrite Forall_forall in h. apply h in hr. destruct r as [|z r]; [ simpl in hr; lia | ].
  assert (hz : forall t, is_comment (decz z ++ t) = false).
  { intros t.
    assert (hd : forall k, is_comment (dec k ++ t) = false).
    { intros k. pose proof (dec_digits k) as hk. pose proof (dec_nonempty k) as hk'.
      destruct (dec k) as [|a s]; [ easy | ]. simpl in hk. rewrite andb_true_iff in hk. destruct hk as [hk _].
      destruct a as [[] [] [] [] [] [] [] []]; simpl; trivial; discriminate. }
    destruct z; simpl; [ reflexivity | apply hd | reflexivity ]. }
  destruct r as [|z' r]; simpl.
  - rewrite <- (app_empty (decz z)). apply hz.
  - apply hz.
Qed.

(* the loop *)
Lemma loop_rows lines rows rest index last arrays : Forall (fun l => is_comment l = false) rows ->
  arrays_loop lines index last (rows ++ rest) arrays = arrays_loop lines (index + length rows) last rest arrays.
Proof.
  intros h; revert index; induction h as [|l ls h _ IH]; intros index; simpl.
  - now rewrite Nat.add_0_r.
  - rewrite h. rewrite IH. f_equal. lia.
Qed.
Lemma loop_block pre c rows c' rest arrays m : is_comment c = true -> array m -> rows = savetxt m -> is_comment c' = true ->
  let lines := (pre ++ c :: rows ++ c' :: rest)%list in
  let i := length pre in
  arrays_loop lines (i + 1) i (rows ++ c' :: rest) arrays =
  arrays_loop lines (length (pre ++ c :: rows) + 1) (length (pre ++ c :: rows)) rest (arrays ++ [m]).
Proof.
  intros hc hm er hc' lines i. rewrite loop_rows by (subst rows; now apply savetxt_comment).
  simpl arrays_loop. rewrite hc'.
  assert (hl : length rows <> 0).
  { subst rows. unfold savetxt. rewrite map_length. destruct hm as [ne _]. destruct m; [ easy | discriminate ]. }
  assert (e1 : Nat.ltb (i + 1) (i + 1 + length rows) = true) by (apply Nat.ltb_lt; lia).
  rewrite e1.
  assert (e2 : firstn (i + 1 + length rows - (i + 1)) (skipn (i + 1) lines) = rows).
  { replace (i + 1 + length rows - (i + 1)) with (length rows) by lia.
    unfold lines. replace (pre ++ c :: rows ++ c' :: rest)%list with ((pre ++ [c]) ++ rows ++ c' :: rest)%list by now rewrite <- app_assoc.
    rewrite skipn_app. replace (i + 1 - length (pre ++ [c])) with 0 by (rewrite app_length; simpl; unfold i; lia).
    rewrite skipn_all2 by (rewrite app_length; simpl; unfold i; lia). simpl.
    rewrite firstn_app, Nat.sub_diag, firstn_all. simpl. now rewrite app_nil_r. }
  rewrite e2, er, (genfromtxt_ok m hm).
  rewrite <- er. rewrite app_length. simpl length. unfold i.
  replace (length pre + S (length rows)) with (length pre + 1 + length rows) by lia. reflexivity.
Qed.
Lemma loop_headers lines hs rest index last arrays : Forall (fun l => is_comment l = true) hs -> index <= last + 1 ->
  hs <> [] ->
  arrays_loop lines index last (hs ++ rest) arrays = arrays_loop lines (index + length hs) (index + length hs - 1) rest arrays.
Proof.
  intros h; revert index last; induction h as [|l ls h _ IH]; intros index last hle hne; [ easy | ].
  simpl. rewrite h. replace (Nat.ltb (last + 1) index) with false by (symmetry; apply Nat.ltb_ge; lia).
  destruct ls as [|l' ls].
  - simpl. f_equal. lia.
  - rewrite IH by (try lia; discriminate). simpl. f_equal; lia.
Qed.
Lemma loop_end lines l index last arrays : is_comment l = true -> index <= last + 1 ->
  arrays_loop lines index last [l] arrays = Some arrays.
Proof.
  intros h hle. simpl. rewrite h. now replace (Nat.ltb (last + 1) index) with false by (symmetry; apply Nat.ltb_ge; lia).
Qed.

Lemma lstrip_decz z : lstrip (decz z) = decz z.
Proof.
  destruct (decz_word z) as [h _]. destruct (decz z) as [|a s]; trivial. simpl in h. rewrite andb_true_iff, negb_true_iff in h.
  destruct h as [h _]. destruct a as [[] [] [] [] [] [] [] []]; simpl in *; trivial; discriminate.
Qed.
Lemma colon_free z : all_chars (fun a => negb (Ascii.eqb a ":")) (decz z) = true.
Proof.
  assert (h : forall n, all_chars (fun a => negb (Ascii.eqb a ":")) (dec n) = true).
  { intros n. apply (digits_avoid (fun a => Ascii.eqb a ":")); [ | apply dec_digits ].
    intros a; destruct a as [[] [] [] [] [] [] [] []]; simpl; trivial; discriminate. }
  destruct z; simpl; [ reflexivity | apply h | apply h ].
Qed.

Theorem save_load headers d : array (qt_a d) -> array (qt_b d) -> array (qt_ma d) -> array (qt_mb d) ->
  load (save headers d) = Some d.
Proof.
  intros ha hb hma hmb. unfold load, save. rewrite splitlines_write by apply nobreak_save.
  set (lines := save_lines headers d).
  set (hs := map (fun l => ("# " ++ l)%string) (flat_map splitlines headers)).
  set (lq := "# base field: " ++ decz (qt_q d)). set (lb := "# bipartite: " ++ (if qt_bip d then "True" else "False")).
  assert (el : lines = ((hs ++ ["# subset_a:"]) ++ savetxt (qt_a d) ++ ["# subset_b:"] ++ savetxt (qt_b d) ++
    ["# code_a.matrix:"] ++ savetxt (qt_ma d) ++ ["# code_b.matrix:"] ++ savetxt (qt_mb d) ++ [lq; lb])%list).
  { unfold lines, save_lines. fold hs lq lb. now rewrite <- app_assoc. }
  assert (el2 : exists pre, lines = (pre ++ [lq; lb])%list).
  { exists (hs ++ ["# subset_a:"] ++ savetxt (qt_a d) ++ ["# subset_b:"] ++ savetxt (qt_b d) ++
    ["# code_a.matrix:"] ++ savetxt (qt_ma d) ++ ["# code_b.matrix:"] ++ savetxt (qt_mb d))%list. rewrite el. now rewrite <- !app_assoc. }
  assert (eloop : arrays_loop lines 0 0 lines [] = Some [qt_a d; qt_b d; qt_ma d; qt_mb d]).
  { rewrite el at 2. rewrite loop_headers.
    2:{ apply Forall_app. split; [ | now repeat constructor ]. apply Forall_forall. intros l hl. apply in_map_iff in hl as [s [<- _]]. reflexivity. }
    2: lia.
    2: { destruct hs; discriminate. }
    rewrite app_length. simpl length. rewrite Nat.add_0_l. replace (length hs + 1 - 1) with (length hs) by lia.
    simpl app at 1. 
    pose proof (loop_block hs "# subset_a:" (savetxt (qt_a d)) "# subset_b:"
      (savetxt (qt_b d) ++ ["# code_a.matrix:"] ++ savetxt (qt_ma d) ++ ["# code_b.matrix:"] ++ savetxt (qt_mb d) ++ [lq; lb])%list
      [] (qt_a d) eq_refl ha eq_refl eq_refl) as h1. cbv zeta in h1.
    pose proof (loop_block (hs ++ "# subset_a:" :: savetxt (qt_a d)) "# subset_b:" (savetxt (qt_b d)) "# code_a.matrix:"
      (savetxt (qt_ma d) ++ ["# code_b.matrix:"] ++ savetxt (qt_mb d) ++ [lq; lb])%list
      [qt_a d] (qt_b d) eq_refl hb eq_refl eq_refl) as h2. cbv zeta in h2.
    pose proof (loop_block ((hs ++ "# subset_a:" :: savetxt (qt_a d)) ++ "# subset_b:" :: savetxt (qt_b d)) "# code_a.matrix:" (savetxt (qt_ma d)) "# code_b.matrix:"
      (savetxt (qt_mb d) ++ [lq; lb])%list
      [qt_a d; qt_b d] (qt_ma d) eq_refl hma eq_refl eq_refl) as h3. cbv zeta in h3.
    pose proof (loop_block (((hs ++ "# subset_a:" :: savetxt (qt_a d)) ++ "# subset_b:" :: savetxt (qt_b d)) ++ "# code_a.matrix:" :: savetxt (qt_ma d)) "# code_b.matrix:" (savetxt (qt_mb d)) lq
      [lb] [qt_a d; qt_b d; qt_ma d] (qt_mb d) eq_refl hmb eq_refl eq_refl) as h4. cbv zeta in h4.
    assert (L1 : lines = (hs ++ "# subset_a:" :: savetxt (qt_a d) ++ "# subset_b:" :: savetxt (qt_b d) ++ ["# code_a.matrix:"] ++ savetxt (qt_ma d) ++ ["# code_b.matrix:"] ++ savetxt (qt_mb d) ++ [lq; lb])%list)
      by (rewrite el, <- app_assoc; reflexivity).
    rewrite <- L1 in h1. etransitivity; [ exact h1 | ]. clear h1.
    assert (L2 : lines = ((hs ++ "# subset_a:" :: savetxt (qt_a d)) ++ "# subset_b:" :: savetxt (qt_b d) ++ "# code_a.matrix:" :: savetxt (qt_ma d) ++ ["# code_b.matrix:"] ++ savetxt (qt_mb d) ++ [lq; lb])%list)
      by (rewrite L1, <- app_assoc; reflexivity).
    rewrite <- L2 in h2. etransitivity; [ exact h2 | ]. clear h2.
    assert (L3 : lines = (((hs ++ "# subset_a:" :: savetxt (qt_a d)) ++ "# subset_b:" :: savetxt (qt_b d)) ++ "# code_a.matrix:" :: savetxt (qt_ma d) ++ "# code_b.matrix:" :: savetxt (qt_mb d) ++ [lq; lb])%list)
      by (rewrite L2, <- !app_assoc; reflexivity).
    rewrite <- L3 in h3. etransitivity; [ exact h3 | ]. clear h3.
    assert (L4 : lines = ((((hs ++ "# subset_a:" :: savetxt (qt_a d)) ++ "# subset_b:" :: savetxt (qt_b d)) ++ "# code_a.matrix:" :: savetxt (qt_ma d)) ++ "# code_b.matrix:" :: savetxt (qt_mb d) ++ lq :: [lb])%list)
      by (rewrite L3, <- !app_assoc; reflexivity).
    rewrite <- L4 in h4. etransitivity; [ exact h4 | ].
    apply loop_end; [ reflexivity | lia ]. }
  destruct el2 as [pre el2]. rewrite eloop, el2.
  assert (e2 : length (pre ++ [lq; lb])%list = S (S (length pre))) by (rewrite app_length; simpl; lia). rewrite e2.
  replace (Nat.ltb (S (S (length pre))) 2) with false by (symmetry; apply Nat.ltb_ge; lia).
  rewrite !app_nth2 by lia. replace (S (S (length pre)) - 2 - length pre) with 0 by lia.
  replace (S (S (length pre)) - 1 - length pre) with 1 by lia. simpl nth.
  assert (eq1 : after_colon lq = " " ++ decz (qt_q d)).
  { unfold after_colon, lq. change ("# base field: " ++ decz (qt_q d)) with ("# base field" ++ String ":" (" " ++ decz (qt_q d))).
    rewrite split_app by reflexivity. rewrite split_none by (simpl; apply colon_free). reflexivity. }
  assert (eq2 : after_colon lb = " " ++ (if qt_bip d then "True" else "False")).
  { unfold lb. destruct (qt_bip d); reflexivity. }
  rewrite eq1, eq2. unfold literal_int. simpl lstrip. rewrite lstrip_decz, int_of_decz.
  destruct d as [a b ma mb q bip]; simpl. destruct bip; reflexivity.
Qed.

(* a matrix without rows leaves no array in the file *)
Lemma no_checks headers d : array (qt_a d) -> array (qt_b d) -> array (qt_ma d) -> qt_mb d = [] -> load (save headers d) = None.
Proof.
  intros ha hb hma hmb. unfold load, save. rewrite splitlines_write by apply nobreak_save.
  set (lines := save_lines headers d).
  set (hs := map (fun l => ("# " ++ l)%string) (flat_map splitlines headers)).
  set (lq := "# base field: " ++ decz (qt_q d)). set (lb := "# bipartite: " ++ (if qt_bip d then "True" else "False")).
  assert (el : lines = ((hs ++ ["# subset_a:"]) ++ savetxt (qt_a d) ++ ["# subset_b:"] ++ savetxt (qt_b d) ++
    ["# code_a.matrix:"] ++ savetxt (qt_ma d) ++ ["# code_b.matrix:"; lq; lb])%list).
  { unfold lines, save_lines. fold hs lq lb. rewrite hmb. now rewrite <- app_assoc. }
  assert (eloop : arrays_loop lines 0 0 lines [] = Some [qt_a d; qt_b d; qt_ma d]).
  { rewrite el at 2. rewrite loop_headers.
    2:{ apply Forall_app. split; [ | now repeat constructor ]. apply Forall_forall. intros l hl. apply in_map_iff in hl as [s [<- _]]. reflexivity. }
    2: lia.
    2: { destruct hs; discriminate. }
    rewrite app_length. simpl length. rewrite Nat.add_0_l. replace (length hs + 1 - 1) with (length hs) by lia.
    simpl app at 1. 
    pose proof (loop_block hs "# subset_a:" (savetxt (qt_a d)) "# subset_b:"
      (savetxt (qt_b d) ++ ["# code_a.matrix:"] ++ savetxt (qt_ma d) ++ ["# code_b.matrix:"; lq; lb])%list
      [] (qt_a d) eq_refl ha eq_refl eq_refl) as h1. cbv zeta in h1.
    pose proof (loop_block (hs ++ "# subset_a:" :: savetxt (qt_a d)) "# subset_b:" (savetxt (qt_b d)) "# code_a.matrix:"
      (savetxt (qt_ma d) ++ ["# code_b.matrix:"; lq; lb])%list
      [qt_a d] (qt_b d) eq_refl hb eq_refl eq_refl) as h2. cbv zeta in h2.
    pose proof (loop_block ((hs ++ "# subset_a:" :: savetxt (qt_a d)) ++ "# subset_b:" :: savetxt (qt_b d)) "# code_a.matrix:" (savetxt (qt_ma d)) "# code_b.matrix:"
      [lq; lb]
      [qt_a d; qt_b d] (qt_ma d) eq_refl hma eq_refl eq_refl) as h3. cbv zeta in h3.
    assert (L1 : lines = (hs ++ "# subset_a:" :: savetxt (qt_a d) ++ "# subset_b:" :: savetxt (qt_b d) ++ ["# code_a.matrix:"] ++ savetxt (qt_ma d) ++ ["# code_b.matrix:"; lq; lb])%list)
      by (rewrite el, <- app_assoc; reflexivity).
    rewrite <- L1 in h1. etransitivity; [ exact h1 | ]. clear h1.
    assert (L2 : lines = ((hs ++ "# subset_a:" :: savetxt (qt_a d)) ++ "# subset_b:" :: savetxt (qt_b d) ++ "# code_a.matrix:" :: savetxt (qt_ma d) ++ ["# code_b.matrix:"; lq; lb])%list)
      by (rewrite L1, <- app_assoc; reflexivity).
    rewrite <- L2 in h2. etransitivity; [ exact h2 | ]. clear h2.
    assert (L3 : lines = (((hs ++ "# subset_a:" :: savetxt (qt_a d)) ++ "# subset_b:" :: savetxt (qt_b d)) ++ "# code_a.matrix:" :: savetxt (qt_ma d) ++ "# code_b.matrix:" :: [lq; lb])%list)
      by (rewrite L2, <- !app_assoc; reflexivity).
    rewrite <- L3 in h3. etransitivity; [ exact h3 | ]. clear h3.
    simpl. replace (Nat.ltb _ _) with false by (symmetry; apply Nat.ltb_ge; lia).
    now replace (Nat.ltb _ _) with false by (symmetry; apply Nat.ltb_ge; lia). }
  rewrite eloop. destruct (Nat.ltb _ _); trivial. destruct (literal_int _); trivial. now destruct (literal_bool _).
Qed.
