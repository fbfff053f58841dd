(* Text form of Pauli operators, qudit operators and qudit codes: model of qldpc/objects.py:36-152 and of get_strings and
   from_strings in qldpc/codes/common.py:816-849. *)
From Coq Require Import String Ascii List ZArith Lia Bool.
From Verif Require Import Text.
Import ListNotations.
Open Scope string_scope.

(* ============================================================================== model *)
(* objects.py:36-42: class Pauli, an enumeration of the pairs (0,0), (0,1), (1,0), (1,1) *)
Inductive Pauli := PI | PZ | PX | PY.
Definition pauli_value (p : Pauli) : Z * Z := match p with PI => (0, 0) | PZ => (0, 1) | PX => (1, 0) | PY => (1, 1) end%Z.
(* Pauli((a, b)): lookup by value, None is ValueError *)
Definition pauli_of (v : Z * Z) : option Pauli :=
  match v with (0, 0) => Some PI | (0, 1) => Some PZ | (1, 0) => Some PX | (1, 1) => Some PY | _ => None end%Z.
(* objects.py:44-48: __mul__ *)
Definition pauli_mul (a b : Pauli) : option Pauli :=
  let (ax, az) := pauli_value a in let (bx, bz) := pauli_value b in pauli_of (Z.modulo (ax + bx) 2, Z.modulo (az + bz) 2)%Z.
(* objects.py:50-52: __invert__ *)
Definition pauli_invert (a : Pauli) : option Pauli := let (x, z) := pauli_value a in pauli_of (z, x).
(* objects.py:54-61: __str__ *)
Definition pauli_str (p : Pauli) : string := match p with PI => "I" | PZ => "Z" | PX => "X" | PY => "Y" end.
(* objects.py:63-74: from_string *)
Definition pauli_from_string (s : string) : option Pauli :=
  if s =? "I" then Some PI else if s =? "Z" then Some PZ else if s =? "X" then Some PX else if s =? "Y" then Some PY else None.

(* objects.py:94-110: class QuditOperator is its value, a pair of integers; __invert__ and __neg__ *)
Definition qop := (Z * Z)%type.
Definition qop_invert (o : qop) : qop := (snd o, fst o).
Definition qop_neg (o : qop) : qop := (- fst o, - snd o)%Z.

(* objects.py:112-123: __str__ *)
Definition factor (p : ascii) (v : Z) : string := String p ("(" ++ decz v ++ ")").
Definition qop_str (o : qop) : string :=
  let (vx, vz) := o in
  if (vx =? 0)%Z && (vz =? 0)%Z then "I"
  else if (vx =? vz)%Z then factor "Y" vz
  else join "*" ((if (vx =? 0)%Z then [] else [factor "X" vx]) ++ (if (vz =? 0)%Z then [] else [factor "Z" vz])).

(* objects.py:125-152: from_string; None is ValueError (or IndexError for an empty factor) *)
Definition add_factor (o : option qop) (f : string) : option qop :=
  match o with
  | None => None
  | Some (vx, vz) =>
      match f with
      | EmptyString => None
      | String p _ =>
          let val_str := substring 2 (String.length f - 3) f in
          if negb (existsb (Ascii.eqb p) ["X"; "Y"; "Z"]%char) || negb (isnumeric val_str)
             || negb (f =? String p ("(" ++ val_str ++ ")")) then None
          else match int_of val_str with
               | None => None
               | Some v => if Ascii.eqb p "X" then Some (v, vz) else if Ascii.eqb p "Z" then Some (vx, v) else Some (v, v)
               end
      end
  end.
Definition qop_from_string (s : string) : option qop :=
  if s =? "I" then Some (0, 0)%Z
  else let factors := split (Ascii.eqb "*") s in
       if Nat.ltb 2 (length factors) then None else fold_left add_factor factors (Some (0, 0)%Z).

(* a parity check matrix: rows of 2n integers in range(q); galois prints the elements of GF(q) as integers *)
Definition check_ops (n : nat) (row : list Z) : list qop := map (fun i => (nth i row 0%Z, nth (n + i) row 0%Z)) (seq 0 n).

(* str(Pauli(v)); None is ValueError *)
Definition pauli_text (v : qop) : option string := option_map pauli_str (pauli_of v).
Fixpoint all_some {T} (l : list (option T)) : option (list T) :=
  match l with
  | [] => Some []
  | None :: _ => None
  | Some x :: l' => option_map (cons x) (all_some l')
  end.

(* common.py:816-831: get_strings *)
Definition get_strings (q : Z) (n : nat) (m : list (list Z)) : option (list string) :=
  all_some (map (fun row => option_map (join " ") (all_some (map (fun v => if (q =? 2)%Z then pauli_text v else Some (qop_str v))
    (check_ops n row)))) m).

(* common.py:833-849: from_strings with an explicit field; the result is the parity check matrix handed to QuditCode.
   None stands for the errors: no checks (IndexError), checks of different lengths, operators that cannot be read *)
Definition row_of (ops : list qop) : list Z := (map fst ops ++ map snd ops)%list.
Definition from_strings (q : Z) (checks : list string) : option (list (list Z)) :=
  let check_ops := map words checks in
  match check_ops with
  | [] => None
  | first :: _ =>
      all_some (map (fun ops =>
        if Nat.eqb (length ops) (length first)
        then option_map row_of (all_some (map (fun s => if (q =? 2)%Z then option_map pauli_value (pauli_from_string s)
                                                        else qop_from_string s) ops))
        else None) check_ops)
  end.

(* ============================================================================= proofs *)
Lemma pauli_roundtrip p : pauli_from_string (pauli_str p) = Some p.
Proof. now destruct p. Qed.
Lemma pauli_of_value p : pauli_of (pauli_value p) = Some p.
Proof. now destruct p. Qed.
Lemma pauli_mul_ok a b : exists c, pauli_mul a b = Some c /\
  (fst (pauli_value c) = (fst (pauli_value a) + fst (pauli_value b)) mod 2 /\
   snd (pauli_value c) = (snd (pauli_value a) + snd (pauli_value b)) mod 2)%Z.
Proof. destruct a, b; eexists; split; reflexivity || split; reflexivity. Qed.

Lemma isnum_decz v : (0 <= v)%Z -> isnumeric (decz v) = true.
Proof. intros h. rewrite decz_nonneg by trivial. apply dec_numeric. Qed.

Lemma factor_avoid (p : ascii -> bool) c v : (0 <= v)%Z -> p c = false -> p "("%char = false -> p ")"%char = false ->
  (forall a, is_digit a = true -> p a = false) -> all_chars (fun a => negb (p a)) (factor c v) = true.
Proof.
  intros hv h1 h2 h3 hd. unfold factor. simpl. rewrite h1, h2, all_app. simpl. rewrite h3, !andb_true_r. simpl.
  rewrite decz_nonneg by trivial. apply digits_avoid; [ exact hd | apply dec_digits ].
Qed.

Lemma digit_star a : is_digit a = true -> Ascii.eqb "*" a = false.
Proof. intros h. apply digit_char in h. simpl in h. intuition; subst; reflexivity. Qed.
Lemma digit_space a : is_digit a = true -> is_space a = false.
Proof. intros h. apply digit_char in h. simpl in h. intuition; subst; reflexivity. Qed.

Lemma factor_value c v : (0 <= v)%Z -> substring 2 (String.length (factor c v) - 3) (factor c v) = decz v.
Proof.
  intros hv. unfold factor.
  assert (e : String.length (String c ("(" ++ decz v ++ ")")) - 3 = String.length (decz v)).
  { simpl. rewrite length_app. simpl. lia. }
  rewrite e. change (String c ("(" ++ decz v ++ ")")) with ((String c "(") ++ decz v ++ ")").
  apply (substring_app (String c "(")).
Qed.

Lemma add_factor_ok c v vx vz : (0 <= v)%Z -> existsb (Ascii.eqb c) ["X"; "Y"; "Z"]%char = true ->
  add_factor (Some (vx, vz)) (factor c v) =
    if Ascii.eqb c "X" then Some (v, vz) else if Ascii.eqb c "Z" then Some (vx, v) else Some (v, v).
Proof.
  intros hv hc. unfold add_factor. unfold factor at 1. fold (factor c v).
  change (String c ("(" ++ decz v ++ ")")) with (factor c v).
  rewrite factor_value by trivial. rewrite hc, isnum_decz by trivial.
  change (String c ("(" ++ decz v ++ ")")) with (factor c v).
  rewrite String.eqb_refl. simpl negb. cbv beta iota. simpl orb. cbv iota.
  now rewrite int_of_decz.
Qed.

Lemma fs_factors l : l <> [] -> length l <= 2 ->
  Forall (fun s => all_chars (fun a => negb (Ascii.eqb "*" a)) s = true) l ->
  (forall s, l = [s] -> s <> "I") ->
  qop_from_string (join "*" l) = fold_left add_factor l (Some (0, 0)%Z).
Proof.
  intros h1 h2 h3 h4. unfold qop_from_string.
  destruct (String.eqb_spec (join "*" l) "I") as [e|_].
  - exfalso. destruct l as [|w [|w' l]]; [ easy | now apply (h4 w) | ].
    simpl in e. destruct w as [|a [|b w]]; simpl in e; try discriminate.
  - rewrite split_join by trivial. destruct (Nat.ltb_spec 2 (length l)); [ lia | reflexivity ].
Qed.

Lemma factor_star c v : (0 <= v)%Z -> Ascii.eqb "*" c = false -> all_chars (fun a => negb (Ascii.eqb "*" a)) (factor c v) = true.
Proof. intros. apply factor_avoid; trivial. exact digit_star. Qed.
Lemma factor_notI c v : factor c v <> "I".
Proof. discriminate. Qed.

Lemma qop_roundtrip o : (0 <= fst o)%Z -> (0 <= snd o)%Z -> qop_from_string (qop_str o) = Some o.
Proof.
  destruct o as [vx vz]; simpl. intros hx hz.
  destruct (Z.eqb_spec vx 0) as [ex|nx], (Z.eqb_spec vz 0) as [ez|nz]; simpl.
  - now subst.
  - destruct (Z.eqb_spec vx vz); [ lia | ]. change (factor "Z" vz) with (join "*" [factor "Z" vz]).
    rewrite fs_factors; [ | easy | simpl; lia | constructor; [ now apply factor_star | constructor ] | now intros s [= <-] ].
    cbn [fold_left]. rewrite add_factor_ok by trivial. simpl. now subst.
  - destruct (Z.eqb_spec vx vz); [ lia | ]. change (factor "X" vx) with (join "*" [factor "X" vx]).
    rewrite fs_factors; [ | easy | simpl; lia | constructor; [ now apply factor_star | constructor ] | now intros s [= <-] ].
    cbn [fold_left]. rewrite add_factor_ok by trivial. simpl. now subst.
  - destruct (Z.eqb_spec vx vz).
    + change (factor "Y" vz) with (join "*" [factor "Y" vz]).
      rewrite fs_factors; [ | easy | simpl; lia | constructor; [ now apply factor_star | constructor ] | now intros s [= <-] ].
      cbn [fold_left]. rewrite add_factor_ok by trivial. simpl. now subst.
    + change (String "X" (String "(" ((decz vx ++ ")") ++ String "*" (factor "Z" vz)))) with (join "*" [factor "X" vx; factor "Z" vz]).
      rewrite fs_factors; [ | easy | simpl; lia
                          | repeat (constructor; [ now apply factor_star | ]); constructor | intros s e; discriminate ].
      cbn [fold_left]. rewrite (add_factor_ok "X") by trivial. cbn [Ascii.eqb Bool.eqb]. cbv iota.
      rewrite add_factor_ok by trivial. reflexivity.
Qed.

Lemma qop_str_words o : (0 <= fst o)%Z -> (0 <= snd o)%Z ->
  all_chars (fun a => negb (is_space a)) (qop_str o) = true /\ qop_str o <> "".
Proof.
  destruct o as [vx vz]; simpl. intros hx hz.
  assert (f : forall c v, (0 <= v)%Z -> is_space c = false -> all_chars (fun a => negb (is_space a)) (factor c v) = true).
  { intros. apply factor_avoid; trivial. exact digit_space. }
  destruct (Z.eqb_spec vx 0) as [ex|nx], (Z.eqb_spec vz 0) as [ez|nz]; simpl; try (split; [ reflexivity | discriminate ]);
    destruct (Z.eqb_spec vx vz); simpl join; (split; [ | discriminate ]); try now apply f.
  change (String "X" (String "(" ((decz vx ++ ")") ++ String "*" (factor "Z" vz)))) with (factor "X" vx ++ "*" ++ factor "Z" vz).
  rewrite !all_app. rewrite !f by trivial. reflexivity.
Qed.

Lemma all_some_map {A B} (f : A -> option B) (g : A -> B) l : (forall x, In x l -> f x = Some (g x)) ->
  all_some (map f l) = Some (map g l).
Proof.
  induction l as [|a l IH]; simpl; trivial. intros h. rewrite h by auto. rewrite IH by auto. reflexivity.
Qed.

Lemma nth_map_seq (T : Type) (d : T) (l : list T) k : map (fun i => nth (k + i) l d) (seq 0 (length l - k)) = skipn k l.
Proof.
  revert l; induction k as [|k IH]; intros l.
  - simpl. rewrite Nat.sub_0_r. induction l as [|a l IHl]; simpl; trivial. f_equal.
    rewrite <- seq_shift, map_map. exact IHl.
  - destruct l as [|a l]; simpl; trivial.
Qed.

Lemma row_of_ops n row : length row = 2 * n -> row_of (check_ops n row) = row.
Proof.
  intros h. unfold row_of, check_ops. rewrite !map_map. simpl.
  transitivity (firstn n row ++ skipn n row)%list; [ | apply firstn_skipn ]. f_equal.
  - assert (e : n = length (firstn n row)) by (rewrite firstn_length; lia).
    transitivity (map (fun i => nth (0 + i) (firstn n row) 0%Z) (seq 0 (length (firstn n row) - 0))).
    + rewrite <- e, Nat.sub_0_r. apply map_ext_in. intros i hi. apply in_seq in hi. simpl.
      rewrite <- (firstn_skipn n row) at 1. apply app_nth1. lia.
    + apply nth_map_seq.
  - rewrite <- (nth_map_seq Z 0%Z row n). now replace (length row - n) with n by lia.
Qed.

Lemma strings_roundtrip q n m : m <> [] -> (2 <= q)%Z ->
  (forall row, In row m -> length row = 2 * n /\ forall v, In v row -> (0 <= v < q)%Z) ->
  exists s, get_strings q n m = Some s /\ length s = length m /\ from_strings q s = Some m.
Proof.
  intros hm hq hrow.
  set (txt := fun v : qop => if (q =? 2)%Z then match pauli_of v with Some p => pauli_str p | None => "" end else qop_str v).
  assert (hv : forall row v, In row m -> In v (check_ops n row) -> (0 <= fst v < q /\ 0 <= snd v < q)%Z).
  { intros row v h1 h2. destruct (hrow row h1) as [hl hr]. unfold check_ops in h2. apply in_map_iff in h2.
    destruct h2 as [i [<- hi]]. apply in_seq in hi. simpl. split; apply hr; apply nth_In; lia. }
  assert (hp : forall v, q = 2%Z -> (0 <= fst v < q /\ 0 <= snd v < q)%Z -> exists p, pauli_of v = Some p /\ pauli_value p = v).
  { intros [a b] e [h1 h2]; simpl in *.
    assert (ha : a = 0%Z \/ a = 1%Z) by lia. assert (hb : b = 0%Z \/ b = 1%Z) by lia.
    destruct ha, hb; subst a b; eexists; split; reflexivity. }
  assert (ht : forall v, (0 <= fst v < q /\ 0 <= snd v < q)%Z ->
    (if (q =? 2)%Z then pauli_text v else Some (qop_str v)) = Some (txt v) /\
    (if (q =? 2)%Z then option_map pauli_value (pauli_from_string (txt v)) else qop_from_string (txt v)) = Some v /\
    all_chars (fun a => negb (is_space a)) (txt v) = true /\ txt v <> "").
  { intros v h. unfold txt, pauli_text. destruct (Z.eqb_spec q 2) as [e|_].
    - destruct (hp v e h) as [p [e1 e2]]. rewrite e1. simpl. rewrite pauli_roundtrip. simpl. rewrite e2.
      repeat split; destruct p; easy.
    - split; [ reflexivity | ]. split; [ apply qop_roundtrip; lia | apply qop_str_words; lia ]. }
  exists (map (fun row => join " " (map txt (check_ops n row))) m).
  assert (hw : forall row, In row m -> words (join " " (map txt (check_ops n row))) = map txt (check_ops n row)).
  { intros row h. apply words_join. apply Forall_forall. intros s hs. apply in_map_iff in hs. destruct hs as [v [<- hv']].
    apply ht. now apply (hv row). }
  split; [ | split ].
  - unfold get_strings. apply all_some_map. intros row h.
    rewrite (all_some_map _ txt); [ reflexivity | ]. intros v h'. apply ht. now apply (hv row).
  - apply map_length.
  - unfold from_strings. rewrite map_map.
    rewrite (map_ext_in _ (fun row => map txt (check_ops n row))) by exact hw.
    destruct m as [|r0 m']; [ easy | ].
    change (map (fun row => map txt (check_ops n row)) (r0 :: m')) with
      (map txt (check_ops n r0) :: map (fun row => map txt (check_ops n row)) m') at 1.
    cbv iota. set (m := r0 :: m') in *. rewrite map_map.
    rewrite (all_some_map _ (fun row => row)); [ now rewrite map_id | ].
    intros row h. rewrite !map_length. unfold check_ops at 1 2. rewrite !map_length, Nat.eqb_refl.
    rewrite map_map. rewrite (all_some_map _ (fun v => v)).
    + simpl. rewrite map_id. rewrite row_of_ops; [ reflexivity | now apply hrow ].
    + intros v h'. apply ht. now apply (hv row).
Qed.
