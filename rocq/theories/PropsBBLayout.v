(* Properties C48, C49, C50 and C75: layout, basis arithmetic and polynomials of quasi-cyclic codes. *)
From mathcomp Require Import all_ssreflect all_algebra zify.
From Verif Require Import BBLayout QCPoly.
Set Implicit Arguments.
Unset Strict Implicit.
Unset Printing Implicit Defensive.
Import GRing.Theory Num.Theory.

(* C48: nodes and labels correspond one to one *)
Theorem C48_label_inj ra rb nd nd' l : node_label ra rb nd = Some l -> node_label ra rb nd' = Some l -> nd = nd'.
Proof. exact: node_label_inj. Qed.

Theorem C48_label_total ra rb i d : i < 2 * ra * rb -> exists l, node_label ra rb (i, d) = Some l.
Proof. exact: node_label_total. Qed.

Theorem C48_label_surj ra rb l : label_ok ra rb l -> exists nd, nd.1 < 2 * ra * rb /\ node_label ra rb nd = Some l.
Proof. exact: node_label_surj. Qed.

(* ... and labels and grid positions *)
Theorem C48_position_inj f ra rb l l' : label_ok ra rb l -> label_ok ra rb l' ->
  label_pos f ra rb l = label_pos f ra rb l' -> l = l'.
Proof. exact: label_pos_inj. Qed.

Theorem C48_position_range f ra rb l : label_ok ra rb l ->
  ((label_pos f ra rb l).1 < 2 * ra) && ((label_pos f ra rb l).2 < 2 * rb).
Proof. exact: label_pos_lt. Qed.

Theorem C48_position_surj f ra rb p : p.1 < 2 * ra -> p.2 < 2 * rb -> exists2 l, label_ok ra rb l & label_pos f ra rb l = p.
Proof. exact: label_pos_surj. Qed.

(* a data and a check node of the 3 x 2 torus, and their positions in both layouts *)
Example C48_ex : [/\ node_label 3 2 (7, true) = Some (SR, 0, 1), node_label 3 2 (5, false) = Some (SX, 2, 1),
  qubit_pos false 3 2 (5, false) = Some (5, 3), qubit_pos true 3 2 (5, false) = Some (1, 1) & node_label 3 2 (12, true) = None].
Proof. by []. Qed.

(* C49 *)
Theorem C49_order ra rb v : 0 < ra -> 0 < rb ->
  [/\ 0 < get_order ra rb v & forall k : int, same ra rb (k * v.1, k * v.2)%R (0, 0)%R <-> (get_order ra rb v %| k)%Z].
Proof. by move=> a0 b0; split; [exact: get_order_gt0 | move=> k; exact: get_orderP]. Qed.

Theorem C49_valid_basis ra rb v w : 0 < ra -> 0 < rb ->
  is_valid_basis ra rb v w <->
  forall p : int * int, exists c : nat * nat,
    [/\ c.1 < get_order ra rb v, c.2 < get_order ra rb w, same ra rb (comb c.1%:Z c.2%:Z v w) p &
     forall c' : nat * nat, c'.1 < get_order ra rb v -> c'.2 < get_order ra rb w -> same ra rb (comb c'.1%:Z c'.2%:Z v w) p -> c' = c].
Proof. move=> a0 b0; exact: is_valid_basisP. Qed.

Theorem C49_inverse ra rb v w aa bb : 0 < ra -> 0 < rb ->
  match modular_inverse ra rb v w aa bb with
  | Some c => [/\ c.1 < get_order ra rb v, c.2 < get_order ra rb w & same ra rb (comb c.1%:Z c.2%:Z v w) (aa, bb)]
  | None => forall x y : int, ~ same ra rb (comb x y v w) (aa, bb)
  end.
Proof.
move=> a0 b0; case e: (modular_inverse _ _ _ _ _ _) => [c|]; [exact: modular_inverse_some e | exact: modular_inverse_none e].
Qed.

(* a change of basis keeps the group member of a monomial, and is defined for every valid basis *)
Theorem C49_change_basis ra rb g h e e' : 0 < ra -> 0 < rb -> new_exponents ra rb g h e = Some e' ->
  [/\ same ra rb (comb e'.1 e'.2 g h) e,
   (- (get_order ra rb g)%:Z < 2%:Z * e'.1 <= (get_order ra rb g)%:Z)%R &
   (- (get_order ra rb h)%:Z < 2%:Z * e'.2 <= (get_order ra rb h)%:Z)%R].
Proof. move=> a0 b0; exact: new_exponents_ok. Qed.

Theorem C49_change_basis_total ra rb g h e : 0 < ra -> 0 < rb -> is_valid_basis ra rb g h -> new_exponents ra rb g h e <> None.
Proof. move=> a0 b0; exact: new_exponents_total. Qed.

Example C49_ex :
  [&& get_order 12 6 (2, 3)%R == 6, is_valid_basis 6 6 (1, 2)%R (0, 1)%R, is_valid_basis 4 3 (1, 1)%R (0, 0)%R, ~~ is_valid_basis 6 6 (1, 0)%R (2, 0)%R,
      modular_inverse 4 3 (1, 1)%R (0, 0)%R 1 0 == Some (9, 0), modular_inverse 6 6 (1, 0)%R (2, 0)%R 0 1 == None &
      new_exponents 4 3 (1, 1)%R (0, 0)%R (2, 1)%R == Some (- 2, 0)%R].
Proof. by vm_compute. Qed.

(* C50.  Missing for the full statement: expressions with a single term, and coefficients whose k-th power (k the number of
   symbols) differs from the coefficient; both are refuted below *)
Theorem C50_canonical_partial (F : fieldType) orders p g : size p != 1 ->
  (forall t, t \in p -> (t.1)%:~R ^+ size orders = (t.1)%:~R :> F)%R ->
  coeff_at F orders (canonical_form orders p) g = coeff_at F orders p g.
Proof. exact: canonical_form_ok. Qed.

Theorem C50_binary_partial orders p g : 0 < size orders -> size p != 1 ->
  coeff_at [fieldType of 'F_2] orders (canonical_form orders p) g = coeff_at [fieldType of 'F_2] orders p g.
Proof. exact: canonical_form_binary. Qed.

Theorem C50_range orders p t i : all (fun o => 0 < o) orders -> t \in canonical_form orders p -> i < size orders ->
  (- (nth 0%N orders i)%:Z < 2%:Z * nth 0 t.2 i <= (nth 0%N orders i)%:Z)%R.
Proof. exact: canonical_form_range. Qed.

(* 1 + x^7 y^-1 on the 6 x 4 torus *)
Example C50_ex : canonical_form [:: 6; 4] [:: (1, [:: 0; 0]); (1, [:: 7; - 1])]%R = [:: (1, [:: 0; 0]); (1, [:: 1; - 1])]%R.
Proof. by apply/eqP; vm_compute. Qed.

(* 2 + x over the field with three elements: the constant becomes 4 = 1 *)
Theorem C50_canonical_refuted : exists orders p g, size p != 1 /\
  coeff_at [fieldType of 'F_3] orders (canonical_form orders p) g <> coeff_at [fieldType of 'F_3] orders p g.
Proof.
exists [:: 3; 3], [:: (2%:Z, [:: 0; 0]); (1, [:: 1; 0])]%R, [:: 0; 0]; split=> //.
by apply/eqP; rewrite /coeff_at unlock; vm_compute.
Qed.

(* x alone, over any field: the canonical form is 0 *)
Theorem C50_single_refuted (F : fieldType) : exists orders p g,
  coeff_at F orders (canonical_form orders p) g <> coeff_at F orders p g.
Proof.
exists [:: 3; 3], [:: (1, [:: 1; 0])]%R, [:: 1; 0].
by apply/eqP; rewrite /coeff_at unlock /= addr0 eq_sym oner_eq0.
Qed.

(* C75.  Missing for the full statement: two or more orders without a symbol, see C75_symbols_refuted *)
Theorem C75_symbols_partial fuel set_order symbols n : perm_eq set_order symbols -> uniq symbols ->
  size symbols <= n <= size symbols + 1 -> 0 < fuel ->
  exists2 keys, code_symbols fuel set_order symbols n = Some (Some keys) & uniq keys && (size keys == n).
Proof. exact: code_symbols_ok. Qed.

Example C75_ex : code_symbols 1 [:: [:: 120]] [:: [:: 120]] 2 = Some (Some [:: [:: 120]; [:: 126; 120]]).
Proof. by []. Qed.

(* the constructor never returns when two orders have no symbol, e.g. QCCode([3, 3, 3], 1 + x, 1 + x) *)
Theorem C75_symbols_refuted : exists symbols n, [/\ uniq symbols, size symbols <= n &
  forall fuel set_order, perm_eq set_order symbols -> code_symbols fuel set_order symbols n = None].
Proof. by exists [:: [:: 120]], 3; split=> // fuel set_order _; apply: code_symbols_stuck. Qed.

Theorem C75_stuck fuel set_order symbols n : size symbols + 2 <= n -> code_symbols fuel set_order symbols n = None.
Proof. exact: code_symbols_stuck. Qed.

Print Assumptions C48_label_inj.
Print Assumptions C48_label_total.
Print Assumptions C48_label_surj.
Print Assumptions C48_position_inj.
Print Assumptions C48_position_range.
Print Assumptions C48_position_surj.
Print Assumptions C49_order.
Print Assumptions C49_valid_basis.
Print Assumptions C49_inverse.
Print Assumptions C49_change_basis.
Print Assumptions C49_change_basis_total.
Print Assumptions C50_canonical_partial.
Print Assumptions C50_binary_partial.
Print Assumptions C50_range.
Print Assumptions C50_canonical_refuted.
Print Assumptions C50_single_refuted.
Print Assumptions C75_symbols_partial.
Print Assumptions C75_symbols_refuted.
Print Assumptions C75_stuck.
