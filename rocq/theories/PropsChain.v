(* Properties C40 and C41: chain complexes over fields and group algebras. *)
From mathcomp Require Import all_ssreflect all_algebra zify.
From Verif Require Import LinAlg RowReduce Classical ClassicalProofs Symplectic Quantum QuantumProofs Css CssProofs CssGauge.
From Verif Require Import Product PermGroup Abelian GroupRing RingArray Chain ChainInst PropsClassical PropsGroup PropsGroupRing PropsLifted.
Set Implicit Arguments.
Unset Strict Implicit.
Unset Printing Implicit Defensive.
Import GRing.Theory.
Local Open Scope ring_scope.
Notation arr := Chain.arr.

(* consecutive operators fit together and compose to zero *)
Definition chain_complex (F : fieldType) (c : seq (arr F)) : Prop :=
  forall k, (k.+1 < size c)%N -> let M := nth (zeros 0 0 0) c k in let N := nth (zeros 0 0 0) c k.+1 in
    nc M = nr N /\ forall i j, (i < nr M)%N -> (j < nc N)%N -> \sum_(m < nc M) at2 M i m * at2 N m j = 0.

Lemma chain_complexP (F : fieldType) (c : seq (arr F)) : chain_complex c <-> is_complex (fun x : F => x) c.
Proof. by split=> [h | h k hk /=]; [exact: (@is_complexI F 0 F (fun x : F => x)) | exact: (is_complexP 0 h hk)]. Qed.

Section Props.
Variable F : fieldType.
Implicit Types a b c : seq (arr F).

(* C40: the constructor accepts exactly the chain complexes *)
Theorem C40_validation c : f_chain c = Some c <-> chain_complex c.
Proof.
rewrite chain_complexP /f_chain -f_validateP; by case: (f_validate c).
Qed.

(* C40: tensor products *)
Theorem C40_tensor_product a b : (0 < size a)%N -> (0 < size b)%N -> chain_complex a -> chain_complex b ->
  exists2 c, f_tensor a b = Some c & size c = (size a + size b)%N /\ chain_complex c.
Proof.
move=> a0 b0 /chain_complexP ca /chain_complexP cb; have [c e [s h]] := f_tensorP a0 b0 ca cb.
by exists c => //; split=> //; apply/chain_complexP.
Qed.

(* the boundary operator of degree k takes x (x) y, for x of degree i and y of degree j, to dx (x) y + (-1)^i x (x) dy *)
Notation fop := (op (GRing.zero F)).
Notation fdim := (dim (GRing.zero F)).
Theorem C40_boundary a b c k i j i' j' u v u' v' : (0 < size a)%N -> (0 < size b)%N -> chain_complex a -> chain_complex b ->
  f_tensor a b = Some c -> (0 < k <= size a + size b)%N ->
  (i <= size a)%N -> (j <= size b)%N -> (i + j)%N = k -> (i' <= size a)%N -> (j' <= size b)%N -> (i' + j')%N = k.-1 ->
  (u < fdim a i)%N -> (v < fdim b j)%N -> (u' < fdim a i')%N -> (v' < fdim b j')%N ->
  let row := (\sum_(i'.+1 <= t < (minn (size a) k.-1).+1) fdim a t * fdim b (k.-1 - t) + (u' * fdim b j' + v'))%N in
  let col := (\sum_(i.+1 <= t < (minn (size a) k).+1) fdim a t * fdim b (k - t) + (u * fdim b j + v))%N in
  [/\ (row < nr (fop c k))%N, (col < nc (fop c k))%N &
    at2 (fop c k) row col = (if (i == i'.+1) && (j == j') then at2 (fop a i) u' u * (v' == v)%:R
                             else if (i == i') && (j == j'.+1) then (-1) ^+ i * (at2 (fop b j) v' v * (u' == u)%:R) else 0)].
Proof.
move=> a0 b0 /chain_complexP ca /chain_complexP cb e hk hi hj hij hi' hj' hij' hu hv hu' hv' row col.
have [c' e' [sc _]] := f_tensorP a0 b0 ca cb; rewrite e in e'; case: e' => e'.
have -> : fop c k = nth (zeros 0 0 0) c k.-1 by case: (k) hk => // k0 hk; rewrite opS // e' sc.
by have [] := f_tensor_entry a0 b0 ca cb e hk hi hj hij hi' hj' hij' hu hv hu' hv'.
Qed.

(* C40: transposes *)
Theorem C40_transpose c : chain_complex c -> chain_complex (f_dual c) /\
  forall k i j, (k < size c)%N -> let M := nth (zeros 0 0 0) c k in let N := nth (zeros 0 0 0) (f_dual c) (size c - k.+1) in
    [/\ nr N = nc M, nc N = nr M & at2 N i j = at2 M j i].
Proof.
move=> /chain_complexP h; split; first by apply/chain_complexP/f_dualP.
move=> k i j hk; cbv zeta; have lt : (size c - k.+1 < size c)%N by rewrite ltn_subrL; case: (size c) hk.
rewrite /f_dual /dual (nth_map (zeros 0 0 0)) ?size_rev // nth_rev //.
by have -> : (size c - (size c - k.+1).+1 = k)%N by rewrite subnSK // subKn // ltnW.
Qed.

(* C40: generalized surface codes, built from iterated tensor products, are valid stabilizer codes *)
Theorem C40_surface_codes size dim periodic : (1 < dim)%N -> (0 < size)%N || periodic ->
  exists c : csscode F, [/\ surface_code F size dim periodic = Some c, c_ok c, c_sub c = false & orthogonal (c_x c) (c_z c)].
Proof.
move=> hd hs; have [c [e ok es]] := surface_code_ok F hd hs; exists c; split=> //.
have [[_ /(_ es) cm _ _ _] wx wz _ _] := ok; exact/(commuting_orthogonal wx wz).
Qed.
End Props.

(* C41: over the algebra of a commutative group *)
Theorem C41_abelian (F : fieldType) (G : group) n (a b : seq (arr (rmem F))) : grp_ok n G -> {in G &, forall p q, pmul p q = pmul q p} ->
  (0 < size a)%N -> (0 < size b)%N ->
  all_entries (fun x => rm_ok G x) a -> all_entries (fun x => rm_ok G x) b -> r_validate a -> r_validate b ->
  exists2 c, r_tensor a b = Some c & [/\ size c = (size a + size b)%N, all_entries (fun x => rm_ok G x) c & r_validate c].
Proof.
by case: G => [|g G] gG; [have := g_one gG | apply: (r_tensorP (G' := G) gG)].
Qed.

(* transposing is right over every group *)
Theorem C41_transpose (F : fieldType) (G : group) n (c : seq (arr (rmem F))) : grp_ok n G ->
  all_entries (fun x => rm_ok G x) c -> r_validate c -> all_entries (fun x => rm_ok G x) (r_dual c) /\ r_validate (r_dual c).
Proof.
by case: G => [|g G] gG; [have := g_one gG | apply: (r_dualP (G' := G) gG)].
Qed.

(* what validation means over a group algebra: the composition vanishes in the regular representation *)
Theorem C41_validation (F : fieldType) g (G : group) n (c : seq (arr (rmem F))) : grp_ok n (g :: G) ->
  all_entries (fun x => rm_ok (g :: G) x) c -> r_validate c <-> is_complex (rphi g G) c.
Proof. by move=> gG; apply: (r_validateP gG). Qed.

(* finding: over the algebra of a nonabelian group the tensor product of two complexes is not a chain complex *)
Definition arr1 (T : Type) (x : T) : arr T := Arr 1 1 (fun _ _ => x).
Theorem C41_nonabelian_refuted : exists (G : group) n (a b c : seq (arr (rmem F2))),
  [/\ grp_ok n G, (all_entries (fun x => rm_ok G x) a /\ all_entries (fun x => rm_ok G x) b), r_validate a && r_validate b,
      r_tensor a b = Some c & ~~ r_validate c].
Proof.
have e : if r_tensor [:: arr1 s3a] [:: arr1 s3b] is Some c then ~~ r_validate c else false by vm_compute.
move: e; case e: (r_tensor [:: arr1 s3a] [:: arr1 s3b]) => [c|] // h.
exists S3, 3%N, [:: arr1 s3a], [:: arr1 s3b], c; split; [exact: ex_S3 | | by vm_compute | exact: e | exact: h].
by split; split=> // i j _ _; vm_compute.
Qed.

(* non-vacuity *)
Notation F3 := [fieldType of 'F_3].
Definition rep4 : seq (arr F3) := [:: rep_arr F3 4].
Example ex_C40_complex : chain_complex rep4 /\ chain_complex (f_dual rep4).
Proof. by split. Qed.
Example ex_C40_tensor : if f_tensor rep4 (f_dual rep4) is Some c then
  [&& size c == 2%N, [seq (nr M, nc M) | M <- c] == [:: (12, 25); (25, 12)]%N & has (fun i => at2 (nth (rep_arr F3 4) c 1) i 0 != 0) (iota 0 25)] else false.
Proof. by vm_compute. Qed.
Example ex_C40_rejects : isSome (f_chain [:: rep_arr F3 2; arr_T (rep_arr F3 2)]) = false.
Proof. by vm_compute. Qed.
Example ex_C40_surface : if surface_code F3 2 3 true is Some c then (c_n c == 24%N) && has (fun r => has (fun x => x != 0) r) (c_z c) else false.
Proof. by vm_compute. Qed.
Example ex_C41 : all_entries (fun x => rm_ok ab3 x) [:: arr1 (rent lpA 0 0)] /\ r_validate [:: arr1 (rent lpA 0 0)].
Proof. by split; [split=> // i j _ _; vm_compute |]. Qed.

Print Assumptions C40_validation.
Print Assumptions C40_tensor_product.
Print Assumptions C40_boundary.
Print Assumptions C40_transpose.
Print Assumptions C40_surface_codes.
Print Assumptions C41_abelian.
Print Assumptions C41_transpose.
Print Assumptions C41_validation.
Print Assumptions C41_nonabelian_refuted.
