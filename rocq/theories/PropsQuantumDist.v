(* Properties C36-C39: distances, distance bounds, random and reduced logical operators of quantum codes. *)
From Coq Require Import NArith List.
From mathcomp Require Import all_ssreflect all_algebra zify.
From Verif Require Import LinAlg RowReduce Classical ClassicalProofs ClassicalProofs2 ClassicalDist.
From Verif Require Import Symplectic Quantum QuantumProofs QuantumLogs Css CssLogs CssProofs CssGauge QuantumDist CssDist CssReduce.
From Verif Require Import PropsClassical PropsCss.
From Verif Require Pack.
Set Implicit Arguments.
Unset Strict Implicit.
Unset Printing Implicit Defensive.
Import GRing.Theory.
Local Open Scope ring_scope.

Section Props.
Variable F : fieldType.
Notation vec := (seq F).
Notation mat := (seq (seq F)).
Implicit Types c : csscode F.

(* C36: one bound is the weight of a nontrivial logical operator (of the requested type, if a type was requested), for every
   decoder, every stream of random vectors and every random choice of a type *)
Theorem C36_one_bound c pauli choice fuel (rnd : nat -> nat -> vec) (dec : nat -> mat -> vec -> vec) b : c_ok c ->
  c_one_bound c pauli choice fuel rnd dec = Some b ->
  exists v : vec, [/\ size v = c_n c,
    nontrivial (c_n c) (css_mat (c_n c) (c_x c) (c_z c)) (emb (if pauli is Some x then x else choice) (c_n c) v) & hwt v = b].
Proof. by move=> ok /(one_bound_ok ok). Qed.

(* hence it is at least the distance, or the X-distance, or the Z-distance of the code *)
Theorem C36_one_bound_upper c pauli choice fuel (rnd : nat -> nat -> vec) (dec : nat -> mat -> vec -> vec) b d : c_ok c ->
  (if pauli is Some x then is_tdist x (c_n c) (css_mat (c_n c) (c_x c) (c_z c)) d
   else is_qdist (c_n c) (css_mat (c_n c) (c_x c) (c_z c)) d) ->
  c_one_bound c pauli choice fuel rnd dec = Some b -> (d <= b)%N.
Proof. by move=> ok hd e; apply: (one_bound_le ok e). Qed.

(* the best of any number of trials (with any cutoff, and any truthful distances known beforehand) lies between the distance
   and the number of qudits *)
Theorem C36_bound num_trials cutoff c st pauli choice fuel (rnd : nat -> nat -> nat -> vec)
    (dec : nat -> nat -> mat -> vec -> vec) b d : c_ok c -> dstate_ok c st ->
  (if pauli is Some x then is_tdist x (c_n c) (css_mat (c_n c) (c_x c) (c_z c)) d
   else is_qdist (c_n c) (css_mat (c_n c) (c_x c) (c_z c)) d) ->
  c_distance_bound num_trials cutoff c st pauli choice fuel rnd dec = Some b ->
  exists2 k, b = Dist k & (d <= k <= c_n c)%N.
Proof. exact: bound_ok. Qed.

(* C37: reducing logical operators, with any decoder, yields a basis of logical operators which act like the old ones: they
   differ from the old ones by stabilizers; the checks and the number of logical qudits are unchanged *)
Theorem C37_reduce c pauli fuel (dec : bool -> nat -> nat -> mat -> vec -> vec) c' : c_ok c ->
  c_reduce_ops c pauli fuel dec = Some c' ->
  c_ok c' /\ [/\ c_n c' = c_n c, c_x c' = c_x c, c_z c' = c_z c & exists L L',
    [/\ c_get_logical_ops c false = Some L, c_get_logical_ops c' false = Some L',
        logical_basis (c_n c) (c_dimension c) (css_mat (c_n c) (c_x c) (c_z c)) L'
      & same_logicals (c_n c) (css_mat (c_n c) (c_x c) (c_z c)) L L']].
Proof.
move=> ok e; have [ok' [n' x' z' _] _ [L [L' [h1 h2 h3 h4 _]]]] : reduced false c c' by apply: reduce_ops_ok e.
by split=> //; split=> //; exists L, L'.
Qed.

(* the same for a single operator *)
Theorem C37_reduce_one c x idx fuel (dec : nat -> mat -> vec -> vec) c' : c_ok c ->
  c_reduce_op c x idx fuel dec = Some c' ->
  c_ok c' /\ [/\ c_n c' = c_n c, c_x c' = c_x c, c_z c' = c_z c & exists L L',
    [/\ c_get_logical_ops c false = Some L, c_get_logical_ops c' false = Some L',
        logical_basis (c_n c) (c_dimension c) (css_mat (c_n c) (c_x c) (c_z c)) L'
      & same_logicals (c_n c) (css_mat (c_n c) (c_x c) (c_z c)) L L']].
Proof.
move=> ok e; have [ok' [n' x' z' _] _ [L [L' [h1 h2 h3 h4 _]]]] : reduced false c c' by apply: reduce_step e.
by split=> //; split=> //; exists L, L'.
Qed.

(* if the decoder finds solutions of minimum weight, no operator gets heavier *)
Theorem C37_weights_partial c pauli fuel (dec : bool -> nat -> nat -> mat -> vec -> vec) c' : c_ok c ->
  (forall x i, optimal (c_n c) (dec x i)) -> c_reduce_ops c pauli fuel dec = Some c' -> exists L L',
    [/\ c_get_logical_ops c false = Some L, c_get_logical_ops c' false = Some L', size L' = size L
      & forall i, (i < size L)%N -> (qwt (c_n c) (nth [::] L' i) <= qwt (c_n c) (nth [::] L i))%N].
Proof.
move=> ok ho e; have [_ _ _ [L [L' [h1 h2 _ [h4 _] h5]]]] : reduced true c c' by apply: reduce_ops_ok e.
by exists L, L'; split=> //; apply: h5.
Qed.

(* C38: a random logical operator of X type (x = true) or Z type commutes with all checks of the code *)
Theorem C38_commutes c x ensure fuel (rnd : nat -> vec) w : c_ok c -> c_random_logical_op c x ensure fuel rnd = Some w ->
  size w = c_n c /\ forall r, r \in css_mat (c_n c) (c_x c) (c_z c) -> symp (c_n c) r (emb x (c_n c) w) = 0.
Proof. by move=> ok /(random_op_ok ok) [sw h _]; split=> //; apply/(comm_emb x ok sw). Qed.

Theorem C38_nontrivial c x fuel (rnd : nat -> vec) w : c_ok c -> c_random_logical_op c x true fuel rnd = Some w ->
  nontrivial (c_n c) (css_mat (c_n c) (c_x c) (c_z c)) (emb x (c_n c) w).
Proof. by move=> ok /(random_op_ok ok) [_ _ h]; apply: h. Qed.

(* C39: the exact distance of a CSS code, of either type or overall; distances found earlier may have been stored, and the
   distances remembered afterwards are right as well *)
Theorem C39_css be (el : vec) c st pauli : c_ok c -> gauge_ok c -> dstate_ok c st -> uniq (0 :: el) -> (forall y, y \in 0 :: el) ->
  (size el = 1%N -> (N.of_nat (c_n c) < Pack.first_modulus be)%num) -> c_dimension c <> 0%N ->
  exists d st', [/\ c_exact be (0 :: el) c st pauli = Some (Dist d, st'),
    if pauli is Some x then is_tdist x (c_n c) (css_mat (c_n c) (c_x c) (c_z c)) d
    else is_qdist (c_n c) (css_mat (c_n c) (c_x c) (c_z c)) d
    & dstate_ok c st'].
Proof. exact: exact_ok. Qed.

Theorem C39_css_trivial be (el : vec) c st pauli : c_dimension c = 0%N -> exists st', c_exact be el c st pauli = Some (NaN, st').
Proof. exact: exact_trivial. Qed.

(* a new code knows no distances; it remembers that the two distances agree if that was promised or the check matrices agree *)
Theorem C39_css_fresh c (promise : bool) : c_ok c ->
  (promise -> forall d, is_tdist true (c_n c) (css_mat (c_n c) (c_x c) (c_z c)) d <->
                        is_tdist false (c_n c) (css_mat (c_n c) (c_x c) (c_z c)) d) ->
  dstate_ok c (DState None None None (promise || (c_x c == c_z c))).
Proof. exact: fresh_ok. Qed.

(* the exact distance of a stabilizer code *)
Theorem C39_stabilizer be (el : vec) (c : qcode F) kd : q_ok c -> q_sub c = false -> uniq (0 :: el) -> (forall y, y \in 0 :: el) ->
  (size el = 1%N -> (N.of_nat (q_n c + q_n c) < Pack.first_modulus be)%num) -> q_dimension c <> 0%N ->
  (forall d, kd = Some d -> exists2 m, d = Dist m & is_qdist (q_n c) (q_mat c) m) ->
  exists2 d, q_exact be (0 :: el) c kd = Some (Dist d) & is_qdist (q_n c) (q_mat c) d.
Proof. exact: q_exact_stab. Qed.

(* the exact distance of a subsystem code that is not a CSS code, provided that its logical and gauge operators are right
   (they are not always, see C27) *)
Theorem C39_subsystem_partial be (el : vec) (c : qcode F) kd L G : q_ok c -> uniq (0 :: el) -> (forall y, y \in 0 :: el) ->
  (size el = 1%N -> (N.of_nat (q_n c + q_n c) < Pack.first_modulus be)%num) -> q_dimension c <> 0%N ->
  (forall d, kd = Some d -> exists2 m, d = Dist m & is_qdist (q_n c) (q_mat c) m) ->
  get_logical_ops c = Some L -> logical_basis (q_n c) (q_dimension c) (q_mat c) L -> q_get_gauge_ops c = Some G ->
  wf (q_n c + q_n c) G ->
  (forall v, span (q_n c + q_n c) ((get_stabilizer_ops c false true).1 ++ G) v <-> span (q_n c + q_n c) (q_mat c) v) ->
  exists2 d, q_exact be (0 :: el) c kd = Some (Dist d) & is_qdist (q_n c) (q_mat c) d.
Proof. exact: q_exact_ok. Qed.
End Props.

(* C37: with a decoder that is correct but not optimal, reduce_logical_op makes a logical operator heavier: for the Steane code
   and a decoder that returns the operator X on all seven qubits, the X operator of weight three becomes one of weight seven *)
Definition ones7 : seq 'F_2 := nseq 7 1.
Theorem C37_weights_refuted : exists (c : csscode [fieldType of 'F_2]) dec c' L L', c_ok c /\
  [/\ c_reduce_op c true 0 1 dec = Some c', c_get_logical_ops c false = Some L, c_get_logical_ops c' false = Some L'
    & (qwt (c_n c) (nth [::] L 0) < qwt (c_n c) (nth [::] L' 0))%N].
Proof.
pose chk (c' : csscode [fieldType of 'F_2]) := if c_get_logical_ops steane false is Some L then if c_get_logical_ops c' false is Some L' then
  (qwt 7 (nth [::] L 0) < qwt 7 (nth [::] L' 0))%N else false else false.
have [c' e] : exists2 c', c_reduce_op steane true 0 1 (fun _ _ _ => ones7) = Some c' & chk c'.
  by apply: some_with; vm_compute.
rewrite /chk; case eL: (c_get_logical_ops steane false) => [L|//]; case eL': (c_get_logical_ops c' false) => [L'|//] lt.
exists steane, (fun _ _ _ => ones7), c', L, L'; split; first exact: c_ok_mk.
by split.
Qed.

(* the hypotheses are met by concrete codes *)
Definition fresh (c : csscode [fieldType of 'F_2]) := DState None None None (c_x c == c_z c).
Example ex_C36 : c_ok steane /\
  (c_distance_bound 3 (Some 2%N) steane (fresh steane) None (fun t => odd t) 5
     (fun _ _ _ => [:: 1;0;0;1]) (fun _ i _ _ => if i == 0%N then ones7 else [:: 1;1;1;0;0;0;0]) = Some (Dist 7)).
Proof. split; [exact: c_ok_mk | by vm_compute]. Qed.
Example ex_C37 : c_ok steane /\ isSome (c_reduce_ops steane None 1 (fun _ _ _ _ _ => ones7)).
Proof. split; [exact: c_ok_mk | by vm_compute]. Qed.
(* a decoder that tries all vectors *)
Fixpoint vecs (n : nat) : seq (seq 'F_2) := if n is m.+1 then [seq a :: v | a <- [:: 0; 1], v <- vecs m] else [:: [::]].
Definition lighter (a b : seq 'F_2) := if (hwt b < hwt a)%N then b else a.
Definition brute (n : nat) (chk : seq (seq 'F_2)) (syn : seq 'F_2) : seq 'F_2 :=
  let s := [seq e <- vecs n | mulmv chk e == syn] in foldl lighter (head [::] s) s.
Lemma vecs_mem n v : size v = n -> v \in vecs n.
Proof.
elim: n v => [|n IH] [|a v] //= [/IH h]; rewrite !mem_cat.
have e0 (b : 'F_2) : a = b -> (a :: v) \in [seq b :: w | w <- vecs n] by move=> ->; apply: map_f.
have [/eqP h0|/eqP h1] : a == 0 \/ a == 1 by case: a {e0} => [[|[|m]] i]; [left | right | exfalso; move: i; rewrite ltnS].
  by rewrite (e0 _ h0).
by rewrite (e0 _ h1) orbT.
Qed.
Lemma lighter_le s b : (hwt (foldl lighter b s) <= hwt b)%N /\ forall e, e \in s -> (hwt (foldl lighter b s) <= hwt e)%N.
Proof.
elim: s b => [|a s IH] b //=; have [h1 h2] := IH (lighter b a).
have [l1 l2] : (hwt (lighter b a) <= hwt b)%N /\ (hwt (lighter b a) <= hwt a)%N by rewrite /lighter; case: ltnP; lia.
split; first exact: leq_trans h1 l1.
by move=> e; rewrite inE => /orP [/eqP ->|/h2 //]; apply: leq_trans h1 l2.
Qed.
Example ex_C37_optimal : c_ok steane /\ (forall (x : bool) (i : nat), optimal 7 (fun=> brute 7)) /\
  isSome (c_reduce_ops steane None 1 (fun _ _ _ => brute 7)).
Proof.
split; first exact: c_ok_mk.
split; last by vm_compute.
move=> _ _ _ chk syn e se h; apply: (proj2 (lighter_le _ _)).
by rewrite mem_filter h eqxx vecs_mem.
Qed.
Example ex_C38 : c_ok steane /\ (c_random_logical_op steane true true 2 (fun i => if i == 0%N then [:: 0;1;1;1] else [:: 1;0;0;1]) ==
   Some [:: 1;0;0;0;0;1;1]).
Proof. split; [exact: c_ok_mk | by vm_compute]. Qed.
Example ex_C39_hypotheses : gauge_ok steane /\ dstate_ok steane (fresh steane) /\ (c_dimension steane == 1%N).
Proof.
split; first by [].
by split; [apply: (fresh_ok (promise := false)) => //; apply: c_ok_mk | vm_compute].
Qed.
Example ex_C39_steane : c_ok steane /\ (omap fst (c_exact Pack.Swar [:: 0; 1] steane (fresh steane) None) = Some (Dist 3)).
Proof. split; [exact: c_ok_mk | by vm_compute]. Qed.
Example ex_C39_bacon_shor : c_ok bacon_shor_css /\
  (omap fst (c_exact Pack.Numba [:: 0; 1] bacon_shor_css (fresh bacon_shor_css) (Some true)) = Some (Dist 2)).
Proof. split; [exact: c_ok_mk | by vm_compute]. Qed.
Example ex_C39_five : let c := mkq 5 (b2 [:: [:: 1;0;0;1;0; 0;1;1;0;0]; [:: 0;1;0;0;1; 0;0;1;1;0]; [:: 1;0;1;0;0; 0;0;0;1;1];
     [:: 0;1;0;1;0; 1;0;0;0;1]]%N) None in q_exact Pack.BitwiseCount [:: 0; 1] c None = Some (Dist 3).
Proof. by vm_compute. Qed.

Print Assumptions C36_one_bound.
Print Assumptions C36_one_bound_upper.
Print Assumptions C36_bound.
Print Assumptions C37_reduce.
Print Assumptions C37_reduce_one.
Print Assumptions C37_weights_partial.
Print Assumptions C37_weights_refuted.
Print Assumptions C38_commutes.
Print Assumptions C38_nontrivial.
Print Assumptions C39_css.
Print Assumptions C39_css_trivial.
Print Assumptions C39_css_fresh.
Print Assumptions C39_stabilizer.
Print Assumptions C39_subsystem_partial.
