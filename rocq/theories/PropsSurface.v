(* Property C51: rotated surface codes and rotated toric codes. *)
From mathcomp Require Import all_ssreflect all_algebra zify.
From Verif Require Import LinAlg RowReduce Classical ClassicalProofs ClassicalProofs2 ClassicalDist.
From Verif Require Import Symplectic Quantum QuantumProofs QuantumLogs Css CssLogs CssProofs CssGauge QuantumDist CssDist.
From Verif Require Import Surface SurfaceProofs ToricProofs.
From Verif Require Import PropsClassical PropsCss.
Set Implicit Arguments.
Unset Strict Implicit.
Unset Printing Implicit Defensive.
Import GRing.Theory.
Local Open Scope ring_scope.

Lemma filter_false (T : Type) (p : pred T) s : (forall t, p t = false) -> filter p s = [::].
Proof. by move=> h; rewrite (eq_filter h) filter_pred0. Qed.

Section Props.
Variable F : fieldType.
Notation vec := (seq F).
Notation mat := (seq (seq F)).
Implicit Types c : csscode F.

(* Surface codes with at least two rows and two columns exist over every field (order <= 2 is the binary field).  The code is
   a stabilizer code on rows * cols qudits: its checks commute, it encodes exactly one logical qudit, which is the stored
   dimension; its X-distance is cols, its Z-distance is rows, its distance is the smaller one; and everything that is stored
   about distances, including the promise of equal X- and Z-distances, is true *)
Theorem C51_surface order rows cols : (1 < rows)%N -> (1 < cols)%N -> ((order <= 2)%N -> 1 + 1 = 0 :> F) ->
  exists c, [/\ surface_code F order rows cols = Some c, c_n c = (rows * cols)%N, c_ok c, c_sub c = false
    & let A := css_mat (c_n c) (c_x c) (c_z c) in
      [/\ commuting (c_n c) A, counts (c_n c) A 1 0 /\ c_dim c = Some 1%N,
          is_tdist true (c_n c) A cols /\ is_tdist false (c_n c) A rows, is_qdist (c_n c) A (minn cols rows)
        & dstate_ok c (surface_distances rows cols c)]].
Proof.
move=> r1 c1 o2; have := surface_ok r1 c1 o2; set C := CSS _ _ _ _ _ _ _ _ => /= -[ok _ cm ct ds].
by exists C; split=> //; [exact: surface_codeE | split=> //; case: ds].
Qed.

(* one row or one column: no code, because there are no checks of one type *)
Theorem C51_surface_thin order rows cols : (rows <= 1)%N || (cols <= 1)%N -> surface_code F order rows cols = None.
Proof.
move=> h; rewrite /surface_code (surjective_pairing (sf_rotated_checks F rows cols)).
suff -> : (((sf_rotated_checks F rows cols).1 == [::]) || ((sf_rotated_checks F rows cols).2 == [::])) = true by [].
rewrite checks_E; apply/orP; case/orP: h => e; [left | right]; rewrite ?[fst _]/fst ?[snd _]/snd filter_false // => t; apply/negP.
  by move=> /and3P [_ _]; move: e; clear; lia.
by move=> /and4P [_ _ _]; move: e; clear; lia.
Qed.

(* Toric codes with even side lengths, at least two, exist over every field: commuting checks, two logical qudits, and the
   X-distance, the Z-distance and the distance are the smaller side length *)
Theorem C51_toric order rows cols : (0 < rows)%N -> (0 < cols)%N -> ~~ odd rows -> ~~ odd cols ->
  ((order <= 2)%N -> 1 + 1 = 0 :> F) ->
  exists c, [/\ toric_code F order rows cols = Some c, c_n c = (rows * cols)%N, c_ok c, c_sub c = false
    & let A := css_mat (c_n c) (c_x c) (c_z c) in
      [/\ commuting (c_n c) A, counts (c_n c) A 2 0 /\ c_dim c = Some 2%N,
          is_tdist true (c_n c) A (minn rows cols) /\ is_tdist false (c_n c) A (minn rows cols),
          is_qdist (c_n c) A (minn rows cols)
        & dstate_ok c (toric_distances rows cols c)]].
Proof.
move=> r0 c0 er ec o2; have r1 : (1 < rows)%N by case: rows r0 er => [|[|]].
have c1 : (1 < cols)%N by case: cols c0 ec => [|[|]].
have := toric_ok r1 c1 er ec o2; set C := CSS _ _ _ _ _ _ _ _ => /= -[ok _ cm ct ds].
by exists C; split=> //; [exact: toric_codeE | split=> //; case: ds].
Qed.

(* otherwise there is no code *)
Theorem C51_toric_none order rows cols : [|| rows == 0%N, cols == 0%N, odd rows | odd cols] -> toric_code F order rows cols = None.
Proof.
rewrite /toric_code; case: (odd rows); case: (odd cols) => //=; rewrite !orbF => /orP [] /eqP -> //.
suff -> : tc_rotated_checks F rows 0 = ([::], [::]) by [].
by rewrite /tc_rotated_checks; elim: (iota 0 rows).
Qed.
End Props.

(* the field with two elements, and a field with three elements *)
Lemma F2_char : (2 <= 2)%N -> 1 + 1 = 0 :> 'F_2. Proof. by move=> _; apply: val_inj. Qed.
Lemma F3_char : (3 <= 2)%N -> 1 + 1 = 0 :> 'F_3. Proof. by []. Qed.

(* the rotated 3 x 3 code of qubits *)
Example C51_surface_example : exists c, [/\ surface_code [fieldType of 'F_2] 2 3 3 = Some c,
  c_x c = b2 [:: [:: 1;1;0;1;1;0;0;0;0]; [:: 0;0;1;0;0;1;0;0;0]; [:: 0;0;0;1;0;0;1;0;0]; [:: 0;0;0;0;1;1;0;1;1]]%N,
  c_z c = b2 [:: [:: 1;1;0;0;0;0;0;0;0]; [:: 0;1;1;0;1;1;0;0;0]; [:: 0;0;0;1;1;0;1;1;0]; [:: 0;0;0;0;0;0;0;1;1]]%N
  & is_qdist 9 (css_mat 9 (c_x c) (c_z c)) 3].
Proof.
have [c [e n _ _ [_ _ _ d _]]] := @C51_surface [fieldType of 'F_2] 2 3 3 isT isT F2_char.
have h : omap (fun c => (c_x c, c_z c)) (surface_code [fieldType of 'F_2] 2 3 3) == Some (b2 [:: [:: 1;1;0;1;1;0;0;0;0]; [:: 0;0;1;0;0;1;0;0;0]; [:: 0;0;0;1;0;0;1;0;0]; [:: 0;0;0;0;1;1;0;1;1]]%N, b2 [:: [:: 1;1;0;0;0;0;0;0;0]; [:: 0;1;1;0;1;1;0;0;0]; [:: 0;0;0;1;1;0;1;1;0]; [:: 0;0;0;0;0;0;0;1;1]]%N) by vm_compute.
exists c; rewrite e /= in h; move/eqP: h => [h1 h2]; split; [exact: e | exact: h1 | exact: h2 | by move: d; rewrite n].
Qed.
(* a 2 x 3 code of qutrits *)
Example C51_surface_example3 : exists c, [/\ surface_code [fieldType of 'F_3] 3 2 3 = Some c,
  c_z c = b3 [:: [:: 1;2;0;0;0;0]; [:: 0;2;1;0;1;2]; [:: 0;0;0;2;1;0]]%N & is_qdist 6 (css_mat 6 (c_x c) (c_z c)) 2].
Proof.
have [c [e n _ _ [_ _ _ d _]]] := @C51_surface [fieldType of 'F_3] 3 2 3 isT isT F3_char.
have h : omap (fun c => (c_z c)) (surface_code [fieldType of 'F_3] 3 2 3) == Some (b3 [:: [:: 1;2;0;0;0;0]; [:: 0;2;1;0;1;2]; [:: 0;0;0;2;1;0]]%N) by vm_compute.
exists c; rewrite e /= in h; move/eqP: h => [h1]; split; [exact: e | exact: h1 | by move: d; rewrite n].
Qed.
(* a 2 x 4 toric code of qutrits *)
Example C51_toric_example : exists c, [/\ toric_code [fieldType of 'F_3] 3 2 4 = Some c,
  c_x c = b3 [:: [:: 1;1;0;0;1;1;0;0]; [:: 0;0;1;1;0;0;1;1]; [:: 0;1;1;0;0;1;1;0]; [:: 1;0;0;1;1;0;0;1]]%N,
  c_z c = b3 [:: [:: 0;2;1;0;0;1;2;0]; [:: 1;0;0;2;2;0;0;1]; [:: 1;2;0;0;2;1;0;0]; [:: 0;0;1;2;0;0;2;1]]%N
  & is_qdist 8 (css_mat 8 (c_x c) (c_z c)) 2].
Proof.
have [c [e n _ _ [_ _ _ d _]]] := @C51_toric [fieldType of 'F_3] 3 2 4 isT isT isT isT F3_char.
have h : omap (fun c => (c_x c, c_z c)) (toric_code [fieldType of 'F_3] 3 2 4) == Some (b3 [:: [:: 1;1;0;0;1;1;0;0]; [:: 0;0;1;1;0;0;1;1]; [:: 0;1;1;0;0;1;1;0]; [:: 1;0;0;1;1;0;0;1]]%N, b3 [:: [:: 0;2;1;0;0;1;2;0]; [:: 1;0;0;2;2;0;0;1]; [:: 1;2;0;0;2;1;0;0]; [:: 0;0;1;2;0;0;2;1]]%N) by vm_compute.
exists c; rewrite e /= in h; move/eqP: h => [h1 h2]; split; [exact: e | exact: h1 | exact: h2 | by move: d; rewrite n].
Qed.
(* sizes without a code *)
Example C51_none_example : surface_code [fieldType of 'F_2] 2 1 5 = None /\ toric_code [fieldType of 'F_2] 2 3 4 = None.
Proof. by split; [apply: C51_surface_thin | apply: C51_toric_none]. Qed.

Print Assumptions C51_surface.
Print Assumptions C51_surface_thin.
Print Assumptions C51_toric.
Print Assumptions C51_toric_none.
