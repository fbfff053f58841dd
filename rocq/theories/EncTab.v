(* From the rows of get_encoding_tableau to a tableau with signs (circuits.py:81-86). *)
From mathcomp Require Import all_ssreflect all_algebra zify.
From Verif Require Import LinAlg Quantum SignedPauli LogicalTab.
Set Implicit Arguments.
Unset Strict Implicit.
Unset Printing Implicit Defensive.
Import GRing.Theory.
Local Open Scope ring_scope.

(* math.py:34-41 (op_to_string): the Pauli string with sign + and the given support *)
Definition op_string (n : nat) (v : seq 'F_2) : spauli :=
  let u := [seq (nth 0 v i != 0, nth 0 v (n + i) != 0) | i <- iota 0 n] in (ycount u, u).
(* circuits.py:84-86 (stim.Tableau.from_conjugated_generators) *)
Definition op_tableau (n : nat) (xs zs : seq (seq 'F_2)) : tableau := [seq (op_string n p.1, op_string n p.2) | p <- zip xs zs].

Lemma crossE (n : nat) u v : size u = n -> size v = n -> (cross u v)%:R = \sum_(i < n) (nth pI u i).2%:R * (nth pI v i).1%:R :> 'F_2.
Proof.
have bx (a b : bool) : (a (+) b)%:R = a%:R + b%:R :> 'F_2 by case: a; case: b; apply: val_inj.
have ba (a b : bool) : (a && b)%:R = a%:R * b%:R :> 'F_2 by case: a; case: b; apply: val_inj.
elim: u v n => [|a u IH] [|b v] [|n] //= => [_ _|[su] [sv]]; first by rewrite big_ord0.
by rewrite bx ba (IH v n) // big_ord_recl.
Qed.
Lemma f2b (x : 'F_2) : (x != 0)%:R = x.
Proof. by case: x => [[|[|m]] hm] //; apply: val_inj. Qed.
Lemma sympl_op n a b : (sympl (op_string n a).2 (op_string n b).2)%:R = symp n a b.
Proof.
have bx (x y : bool) : (x (+) y)%:R = x%:R + y%:R :> 'F_2 by case: x; case: y; apply: val_inj.
rewrite /sympl bx !(@crossE n) ?size_map ?size_iota // -big_split; apply: eq_bigr => i _.
rewrite !(nth_map 0%N) ?size_iota ?ltn_ord // !nth_iota ?ltn_ord // !add0n /= !f2b.
have o2 (x : 'F_2) : - x = x by case: x => [[|[|m]] hm] //; apply: val_inj.
by rewrite -[in RHS](o2 (_ * nth 0 b i)) opprK addrC [nth 0 b _ * _]mulrC.
Qed.
Lemma size_ops n v : size (op_string n v).2 = n. Proof. by rewrite /= size_map size_iota. Qed.
Lemma op_tableauE n xs zs : size xs = n -> size zs = n ->
  op_tableau n xs zs = [seq (op_string n (nth [::] xs i), op_string n (nth [::] zs i)) | i <- iota 0 n].
Proof.
move=> sx sz; apply: (@eq_from_nth _ (pone n, pone n)); rewrite !size_map size_zip sx sz minnn ?size_iota // => i hi.
by rewrite (nth_map ([::], [::])) ?size_zip ?sx ?sz ?minnn // nth_zip ?sx // (nth_map 0%N) ?size_iota // nth_iota.
Qed.
Lemma op_tableau_val n xs zs : size xs = n -> dual_pairs n n (xs ++ zs) -> tval n (op_tableau n xs zs) /\ size (op_tableau n xs zs) = n.
Proof.
move=> sx [sxz w dp]; have sz : size zs = n by move: sxz; rewrite size_cat sx => /addnI.
split; last by rewrite size_map size_zip sx sz minnn.
have nx i : (i < n)%N -> nth [::] (xs ++ zs) i = nth [::] xs i by move=> hi; rewrite nth_cat sx hi.
have nz i : nth [::] (xs ++ zs) (n + i) = nth [::] zs i by rewrite nth_cat sx ltnNge leq_addr /= addKn.
have bb (a c : bool) : a%:R = c%:R :> 'F_2 -> a = c by case: a; case: c => // /(congr1 val).
rewrite op_tableauE //; apply: tval_tid_gen => // i.
- by move=> _; rewrite !size_ops.
- by move=> _; rewrite /herm /psign !subrr addr0.
move=> l hi hl; have hi' : (i < n + n)%N by rewrite ltn_addr. have hl' : (l < n + n)%N by rewrite ltn_addr.
have ni : (n + i < n + n)%N by rewrite ltn_add2l. have nl : (n + l < n + n)%N by rewrite ltn_add2l.
have e1 a c : (a < n)%N -> (a == c + n)%N = false by move=> ha; apply/ltn_eqF/(leq_trans ha)/leq_addl.
split; apply: bb; rewrite sympl_op.
- by rewrite -!nx // dp // !e1 // subrr.
- by rewrite -!nz dp // ![(n + _)%N]addnC !eqn_add2r !e1 // subrr.
- by rewrite -nx // -nz dp // addnC eqn_add2r (e1 i) // subr0 eq_sym.
- have o2 : - 1 = 1 :> 'F_2 by apply: val_inj.
  rewrite -nx // -nz dp // (e1 l) // [(n + i)%N]addnC eqn_add2r sub0r; by case: (i == l); rewrite ?o2 ?oppr0.
Qed.
