(* Property C97: weights of parity checks (qldpc/codes/common.py, get_weight). *)
From mathcomp Require Import all_ssreflect all_algebra zify.
From Verif Require Import LinAlg RowReduce Kron Classical Symplectic Quantum QuantumProofs.
From Verif Require Import Css CssProofs Product PermGroup Abelian GroupRing RingArray BBLayout QCPoly QuasiCyclic ToricLayout BBConnect CheckWeight.
From Verif Require Import PropsToric.
Set Implicit Arguments.
Unset Strict Implicit.
Unset Printing Implicit Defensive.
Import GRing.Theory.
Local Open Scope ring_scope.

Section Props.
Variable F : fieldType.
Implicit Types A B X Z : mat F.

(* ClassicalCode.get_weight is the largest number of bits that a check addresses, *)
Theorem C97_classical n A w : wf n A -> c_get_weight A = Some w <-> largest (size A) (bits_of n A) w.
Proof.
move=> wA; rewrite /c_get_weight npmaxP size_map; apply: largest_eq => i hi.
by rewrite (nth_map [::]) // (@hwt_card _ n) // (wf_nth wA).
Qed.
(* and QuditCode.get_weight is the largest number of qudits on which a check is not the identity *)
Theorem C97_quantum n A w : wf (n + n) A -> q_get_weight n A = Some w <-> largest (size A) (qudits_of n A) w.
Proof.
move=> wA; rewrite /q_get_weight npmaxP size_map; apply: largest_eq => i hi.
by rewrite (nth_map [::]) // (@q_row_card _ n) // (wf_nth wA).
Qed.
(* an exception is raised exactly if there are no checks *)
Theorem C97_raises n A : (c_get_weight A = None <-> A = [::]) /\ (q_get_weight n A = None <-> A = [::]).
Proof. by rewrite /c_get_weight /q_get_weight /npmax; case: A. Qed.

(* the weight of a CSS code is the larger one of the weights of its two classical codes *)
Theorem C97_css n X Z wx wz : wf n X -> wf n Z -> c_get_weight X = Some wx -> c_get_weight Z = Some wz ->
  q_get_weight n (css_mat n X Z) = Some (maxn wx wz).
Proof. by move=> wX wZ hx hz; rewrite q_weight_css //; apply: npmax_cat. Qed.

(* Hypergraph product codes: the weight is determined by the largest weights of rows and columns of the two matrices *)
Theorem C97_hgp (a b : ccode F) set_logicals c ra rb ca cb : code_ok a -> code_ok b -> hgp a b set_logicals = Some c ->
  largest (size (cc_mat a)) (bits_of (cc_n a) (cc_mat a)) ra -> largest (size (cc_mat b)) (bits_of (cc_n b) (cc_mat b)) rb ->
  largest (cc_n a) (fun j => #|[set i : 'I_(size (cc_mat a)) | ent (cc_mat a) i j != 0]|) ca ->
  largest (cc_n b) (fun j => #|[set i : 'I_(size (cc_mat b)) | ent (cc_mat b) i j != 0]|) cb ->
  q_get_weight (c_n c) (css_mat (c_n c) (c_x c) (c_z c)) = Some (maxn (ra + cb) (rb + ca)).
Proof.
move=> oka okb e; have [c' [e' [_ wx wz _ _] _ _ [_ ex ez _]]] := hgp_ok set_logicals oka okb.
rewrite e in e'; case: e' => ?; subst c'; have [wA _ _] := oka; have [wB _ _] := okb; rewrite q_weight_css // ex ez.
set n1 := cc_n a in wA *; set n2 := cc_n b in wB *; set A := cc_mat a in wA *; set B := cc_mat b in wB *.
move=> la lb lca lcb; rewrite hgp_x_weights // hgp_z_weights //.
have hra : npmax [seq hwt r | r <- A] = Some ra by apply/(@C97_classical n1 A).
have hrb : npmax [seq hwt r | r <- B] = Some rb by apply/(@C97_classical n2 B).
have col n (C : mat F) w : largest n (fun j => #|[set i : 'I_(size C) | ent C i j != 0]|) w ->
    npmax [seq hwt r | r <- trl n C] = Some w /\ (0 < n)%N.
  move=> h; split; last by case: h => -[i hi _] _; apply: leq_ltn_trans hi.
  apply/(@C97_classical (size C)); first exact: wf_trl.
  rewrite size_trl; apply: (proj1 (@largest_eq n _ _ w _) h) => j hj; apply: eq_card => i.
  by rewrite !inE ent_trl.
have [hca n10] := col _ _ _ lca; have [hcb n20] := col _ _ _ lcb.
have m20 : (0 < size B)%N by case: lb => -[i hi _] _; apply: leq_ltn_trans hi.
apply: npmax_cat; first by apply: npmax_pairs => //; rewrite size_map size_trl.
by rewrite [(rb + ca)%N]addnC; apply: npmax_pairs => //; rewrite size_map.
Qed.

(* Bivariate bicycle codes: all checks address as many qudits as the two polynomials have terms *)
Theorem C97_bb (fld : int -> F) ra rb pa pb c : fld 0 = 0 -> (0 < ra)%N -> (0 < rb)%N -> qc_code fld [:: ra; rb] pa pb = Some c ->
  distinct_terms ra rb pa -> distinct_terms ra rb pb -> (forall t, t \in pa ++ pb -> fld t.1 != 0) ->
  (forall i, (i < 2 * (ra * rb))%N -> qudits_of (c_n c) (css_mat (c_n c) (c_x c) (c_z c)) i = (size pa + size pb)%N) /\
  q_get_weight (c_n c) (css_mat (c_n c) (c_x c) (c_z c)) = Some (size pa + size pb)%N.
Proof.
move=> f0 a0 b0 ec da db nz; have [c' [ec' [okq wx wz _ _] _ en]] := qc_ok fld (os_pos a0 b0) isT pa pb.
rewrite ec in ec'; case: ec' => ?; subst c'; have [c' [ec' nc xc zc _]] := bb_code f0 pa pb a0 b0.
rewrite ec in ec'; case: ec' => ?; subst c'; have wq : wf (c_n c + c_n c) (css_mat (c_n c) (c_x c) (c_z c)) by case: okq.
have hw i : (i < ra * rb)%N -> hwt (nth [::] (c_x c) i) = (size pa + size pb)%N /\ hwt (nth [::] (c_z c) i) = (size pa + size pb)%N.
  by move=> hi; apply: (bb_row_weights f0 a0 b0 ec) => //; rewrite -nc.
have sm : size (css_mat (c_n c) (c_x c) (c_z c)) = (2 * (ra * rb))%N by rewrite /css_mat /bdiag size_cat !size_map xc zc mul2n addnn.
have rw i : (i < 2 * (ra * rb))%N -> qudits_of (c_n c) (css_mat (c_n c) (c_x c) (c_z c)) i = (size pa + size pb)%N.
  move=> hi; rewrite /qudits_of -(@q_row_card _ _ (nth [::] (css_mat (c_n c) (c_x c) (c_z c)) i)); last by rewrite (wf_nth wq) // sm.
  rewrite /css_mat /bdiag nth_cat size_map xc; case: ltnP => h.
    by rewrite (nth_map [::]) ?xc // q_row_x ?(wf_nth wx) ?xc //; case: (hw i h).
  have h' : (i - ra * rb < ra * rb)%N by rewrite ltn_subLR // addnn -mul2n.
  by rewrite (nth_map [::]) ?zc // q_row_z ?(wf_nth wz) ?zc //; case: (hw _ h').
split=> //; apply/C97_quantum => //; rewrite sm; split; last by move=> i /rw ->.
by exists 0%N; rewrite ?rw // !muln_gt0 a0 b0.
Qed.
End Props.

(* non-vacuity: the BB code on 72 qubits with two polynomials of three terms, and the product of two repetition codes *)
Definition rep3 : mat F2 := [:: [:: 1; 0; 1]; [:: 0; 1; 1]].
Example C97_ex : [/\ c_get_weight rep3 = Some 2%N, q_get_weight 3 (css_mat 3 rep3 [::]) = Some 2%N,
  distinct_terms 6 6 exA /\ distinct_terms 6 6 exB & forall t, t \in exA ++ exB -> i2 t.1 != 0].
Proof.
split; [by vm_compute | by vm_compute | by split; vm_compute |].
by have /allP h : all (fun t : term => i2 t.1 != 0) (exA ++ exB) by vm_compute.
Qed.
Example C97_hgp_ex : [/\ largest 2 (bits_of 3 rep3) 2, largest 3 (fun j => #|[set i : 'I_2 | ent rep3 i j != 0]|) 2
  & omap (fun c => q_get_weight (c_n c) (css_mat (c_n c) (c_x c) (c_z c))) (hgp (mkcode 3 rep3) (mkcode 3 rep3) false) = Some (Some 4%N)].
Proof.
split; last by vm_compute.
  by apply/(@C97_classical _ 3 rep3).
have h : c_get_weight (trl 3 rep3) = Some 2%N by vm_compute.
have := proj1 (@C97_classical _ 2 (trl 3 rep3) 2 isT) h; rewrite size_trl.
by apply: (proj1 (@largest_eq 3 _ _ 2 _)) => j hj; apply: eq_card => i; rewrite !inE ent_trl.
Qed.

Print Assumptions C97_classical.
Print Assumptions C97_quantum.
Print Assumptions C97_raises.
Print Assumptions C97_css.
Print Assumptions C97_hgp.
Print Assumptions C97_bb.
