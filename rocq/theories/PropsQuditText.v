(* C19, C74: text form of Pauli operators, qudit operators and qudit codes (qldpc/objects.py, qldpc/codes/common.py). *)
From Coq Require Import String Ascii List ZArith Lia Bool.
From Verif Require Import Text QuditText.
Import ListNotations.
Open Scope string_scope.

(* C19: reading back the text of a Pauli operator *)
Theorem C19_pauli p : pauli_from_string (pauli_str p) = Some p.
Proof. exact (pauli_roundtrip p). Qed.

(* C19: reading back the text of a qudit operator with nonnegative values of any size *)
Theorem C19_qudit_operator (x z : Z) : (0 <= x)%Z -> (0 <= z)%Z -> qop_from_string (qop_str (x, z)) = Some (x, z).
Proof. exact (qop_roundtrip (x, z)). Qed.

(* C19: for every field order q and every parity check matrix with at least one row, the text of the code can be written and read
   back as the same matrix.  The order of the field has to be given to from_strings *)
Theorem C19_code q n m : m <> [] -> (2 <= q)%Z ->
  (forall row, In row m -> length row = 2 * n /\ forall v, In v row -> (0 <= v < q)%Z) ->
  exists s, get_strings q n m = Some s /\ length s = length m /\ from_strings q s = Some m.
Proof. exact (strings_roundtrip q n m). Qed.

(* a code without checks cannot be read back *)
Theorem C19_no_checks_refuted : get_strings 2 3 [] = Some [] /\ from_strings 2 [] = None.
Proof. split; reflexivity. Qed.

(* the operator -op has a text that cannot be read back *)
Theorem C19_negative_refuted : exists op, (0 <= fst op)%Z /\ (0 <= snd op)%Z /\ qop_from_string (qop_str (qop_neg op)) = None.
Proof. exists (1, 0)%Z. repeat split; simpl; lia. Qed.

(* C74: a text with two factors is not read as the product of the factors *)
Theorem C74_product_refuted : exists s t x1 z1 x2 z2,
  qop_from_string s = Some (x1, z1) /\ qop_from_string t = Some (x2, z2) /\
  exists r, qop_from_string (s ++ "*" ++ t) = Some r /\ r <> (x1 + x2, z1 + z2)%Z.
Proof.
  exists "Y(1)", "X(2)", 1%Z, 1%Z, 2%Z, 0%Z. split; [ reflexivity | ]. split; [ reflexivity | ].
  exists (2, 1)%Z. split; [ reflexivity | intros [= e] ].
Qed.

(* non-vacuity *)
Example ex_C19_operator : qop_str (12, 305)%Z = "X(12)*Z(305)" /\ qop_from_string "X(12)*Z(305)" = Some (12, 305)%Z.
Proof. split; reflexivity. Qed.
Example ex_C19_code : get_strings 3 2 [[1; 0; 2; 2]; [0; 2; 0; 2]]%Z = Some ["X(1)*Z(2) Z(2)"; "I Y(2)"] /\
  from_strings 3 ["X(1)*Z(2) Z(2)"; "I Y(2)"] = Some [[1; 0; 2; 2]; [0; 2; 0; 2]]%Z.
Proof. split; reflexivity. Qed.
Example ex_C19_hyp : [[1; 0; 2; 2]; [0; 2; 0; 2]]%Z <> [] /\ (2 <= 3)%Z /\
  (forall row, In row [[1; 0; 2; 2]; [0; 2; 0; 2]]%Z -> length row = 2 * 2 /\ forall v, In v row -> (0 <= v < 3)%Z).
Proof.
  split; [ discriminate | split; [ lia | ] ]. intros row [<-|[<-|[]]]; split; trivial; simpl; intros v h; lia.
Qed.
Example ex_C19_pauli : get_strings 2 3 [[1; 0; 1; 0; 1; 1]]%Z = Some ["X Z Y"] /\ from_strings 2 ["X Z Y"] = Some [[1; 0; 1; 0; 1; 1]]%Z.
Proof. split; reflexivity. Qed.

Print Assumptions C19_pauli.
Print Assumptions C19_qudit_operator.
Print Assumptions C19_code.
Print Assumptions C19_no_checks_refuted.
Print Assumptions C19_negative_refuted.
Print Assumptions C74_product_refuted.
