(* Property C53: the five-qubit code, the Steane code, iceberg codes, the C4 code and the C6 code. *)
From Coq Require Import NArith.
From mathcomp Require Import all_ssreflect all_algebra zify.
From Verif Require Import LinAlg RowReduce Classical ClassicalProofs ClassicalProofs2 ClassicalDist.
From Verif Require Import Symplectic Quantum QuantumProofs QuantumLogs Css CssLogs CssProofs CssGauge QuantumDist CssDist CssReduce.
From Verif Require Import Families SmallCodes PropsClassical.
From Verif Require Pack.
Set Implicit Arguments.
Unset Strict Implicit.
Unset Printing Implicit Defensive.
Import GRing.Theory.
Local Open Scope ring_scope.

Lemma some_of (T : Type) (o : option T) : isSome o -> exists x, o = Some x.
Proof. by case: o => [x|//] _; exists x. Qed.

(* the CSS stabilizer code c on n qubits has commuting checks, encodes k qubits, has X-distance, Z-distance and distance d, and
   everything that is stored about it (st are the stored distances) is true *)
Definition css_nkd (n k d : nat) (c : csscode F2) (st : dstate) : Prop :=
  [/\ c_n c = n /\ c_ok c, c_sub c = false /\ commuting n (css_mat n (c_x c) (c_z c)),
      counts n (css_mat n (c_x c) (c_z c)) k 0 /\ c_dim c = Some k,
      (forall x, is_tdist x n (css_mat n (c_x c) (c_z c)) d) /\ is_qdist n (css_mat n (c_x c) (c_z c)) d
    & dstate_ok c st /\ forall x, (c_if_known c st (Some x)).1 = Some (Dist d)].

Lemma small_nkd n (chk ops : mat) k d (c0 := mkcss n chk chk (Some false)) : wf n chk -> wf n ops -> k <> 0%N ->
  (N.of_nat n < Pack.first_modulus Pack.Swar)%num ->
  c_sub (mkcss n chk chk None) = false -> isSome (c_set_logical_ops_xz c0 ops ops true) -> c_dimension c0 = k ->
  c_search Pack.Swar (0 :: F2e) c0 true = Some d -> c_search Pack.Swar (0 :: F2e) c0 false = Some d ->
  exists c, [/\ (forall b, c_set_logical_ops_xz c0 ops ops b = Some c) /\ c_with_dim c k = c, css_nkd n k d c (both_dist c d),
    c_x c = chk /\ c_z c = c_x c, c_get_logical_ops c false = Some (bdiag n n ops ops)
    & logical_basis n k (css_mat n (c_x c) (c_z c)) (bdiag n n ops ops)].
Proof.
move=> wM wO k0 hN s0 h1 hd hx hz.
have [c [[es ew] [ok sb] [ecn ex ez] [cm [hc dm]] [t q st lg lb]]] := small_css wM wO k0 hN s0 h1 hd hx hz.
exists c; rewrite /css_nkd ecn ex ez; rewrite /c_mat ecn ex ez in cm hc t q lb; split=> //; split=> //; split=> // x.
rewrite /c_if_known /c_dimension dm /=; have/eqP/negPf -> := k0; by case: x.
Qed.

Lemma nkd_set n k d c (lx lz : mat) c' : css_nkd n k d c (both_dist c d) -> wf n lx -> wf n lz -> k <> 0%N ->
  c_x c = c_z c -> c_set_logical_ops_xz c lx lz true = Some c' ->
  [/\ css_nkd n k d c' (both_dist c d), c_x c' = c_x c & c_z c' = c_z c].
Proof.
move=> [[cn ok] [sb cm] [hc dm] [t q] _] wx wz k0 exz e.
rewrite -cn in wx wz; have [ok' _ sx sz _] := set_xz_ok ok wx wz e; have ec := set_shape e.
have [en [ex ez]] : c_n c' = c_n c /\ c_x c' = c_x c /\ c_z c' = c_z c by rewrite ec.
have dm' : c_dim c' = Some k.
  by rewrite ec /= size_bdiag sx sz /c_dimension dm addnn -muln2 mulnK.
have eb : both_dist c d = both_dist c' d by rewrite /both_dist ex ez.
split=> //; rewrite /css_nkd eb en cn ex ez; split=> //; first by rewrite ec.
split; first by apply: both_ok => //; rewrite ?ex ?ez // en cn /c_mat en ex ez cn.
move=> x; rewrite /c_if_known /c_dimension dm' /=; have/eqP/negPf -> := k0; by case: x.
Qed.

(* Iceberg codes of every size from two on are [2m, 2m-2, 2] codes whose only check in each sector is the product of all X or
   of all Z operators, with either choice of logical operators *)
Theorem C53_iceberg m alt : (1 < m)%N -> exists c st, [/\ iceberg_code m alt = Some (c, st),
  c_x c = [:: nseq (2 * m) 1], c_z c = [:: nseq (2 * m) 1] & css_nkd (2 * m) (2 * m - 2) 2 c st].
Proof.
move=> m1; have m0 : (0 < m)%N by exact: ltnW.
rewrite /iceberg_code; set c := c_with_dim _ _.
have [ok cm hc] := ice_ok m0; rewrite -/c in ok cm hc.
have k0 : (2 * m - 2 == 0)%N = false by apply/eqP; move: m1; clear; lia.
have t x : is_tdist x (c_n c) (c_mat c) 2 by exact: ice_tdist.
have q : is_qdist (c_n c) (c_mat c) 2.
  have wP := ice_wf m; have := css_qdist wP wP (ice_tdist m0 true m1) (ice_tdist m0 false m1); by rewrite minnn.
have nk : css_nkd (2 * m) (2 * m - 2) 2 c (both_dist c 2).
  split=> //; split; first exact: both_ok.
  by case; rewrite /c_if_known /c_dimension /= k0.
case: ifP => [/andP [_ /eqP e3] | _]; last by exists c, (both_dist c 2).
have wx : wf (2 * m) (bdiag 3 3 sector_ops_x sector_ops_x) by rewrite e3.
have wz : wf (2 * m) (bdiag 3 3 sector_ops_z sector_ops_z) by rewrite e3.
have h : isSome (c_set_logical_ops_xz c (bdiag 3 3 sector_ops_x sector_ops_x) (bdiag 3 3 sector_ops_z sector_ops_z) true).
  by rewrite /c e3; vm_compute.
case/some_of: h => c' e; rewrite e; exists c', (both_dist c 2); move/eqP: k0 => k0.
have [h1 h2 h3] := nkd_set nk wx wz k0 (erefl _) e.
by split; [reflexivity | exact: h2 | exact: h3 | exact: h1].
Qed.

(* The iceberg code of size one encodes no qubit; its distances are reported as undefined although two is stored *)
Theorem C53_iceberg_trivial alt : exists c st, [/\ iceberg_code 1 alt = Some (c, st), c_ok c /\ c_sub c = false,
  commuting 2 (css_mat 2 (c_x c) (c_z c)), counts 2 (css_mat 2 (c_x c) (c_z c)) 0 0 /\ c_dim c = Some 0%N
  & forall pauli, (c_if_known c st pauli).1 = Some NaN].
Proof.
have [ok cm hc] := @ice_ok 1 isT.
exists (c_with_dim (mkcss 2 [:: nseq 2 1] [:: nseq 2 1] (Some false)) 0), (both_dist (mkcss 2 [:: nseq 2 1] [:: nseq 2 1] (Some false)) 2).
split=> //; first by rewrite /iceberg_code andbF.
by case=> [[]|].
Qed.

(* The alternative logical operators of the iceberg code of size three: a symplectic basis in which the first two logical
   qubits live on the first three physical qubits and the last two on the last three *)
Theorem C53_iceberg_alternative : exists c st, [/\ iceberg_code 3 true = Some (c, st),
  c_get_logical_ops c false = Some (bdiag 6 6
    (b2 [:: [:: 1;1;0; 0;0;0]; [:: 0;1;1; 0;0;0]; [:: 0;0;0; 1;1;0]; [:: 0;0;0; 0;1;1]]%N)
    (b2 [:: [:: 0;1;1; 0;0;0]; [:: 1;1;0; 0;0;0]; [:: 0;0;0; 0;1;1]; [:: 0;0;0; 1;1;0]]%N))
  & logical_basis 6 4 (css_mat 6 (c_x c) (c_z c)) (bdiag 6 6
    (b2 [:: [:: 1;1;0; 0;0;0]; [:: 0;1;1; 0;0;0]; [:: 0;0;0; 1;1;0]; [:: 0;0;0; 0;1;1]]%N)
    (b2 [:: [:: 0;1;1; 0;0;0]; [:: 1;1;0; 0;0;0]; [:: 0;0;0; 0;1;1]; [:: 0;0;0; 1;1;0]]%N))].
Proof.
have [ok _ _] := @ice_ok 3 isT; rewrite /iceberg_code; set c := c_with_dim _ _ in ok *.
have wx : wf 6 (bdiag 3 3 sector_ops_x sector_ops_x) by [].
have wz : wf 6 (bdiag 3 3 sector_ops_z sector_ops_z) by [].
have : isSome (c_set_logical_ops_xz c (bdiag 3 3 sector_ops_x sector_ops_x) (bdiag 3 3 sector_ops_z sector_ops_z) true).
  by vm_compute.
case/some_of => c' e; exists c', (both_dist c 2).
have [_ el _ _ lb] := set_xz_ok ok wx wz e; have ec := set_shape e.
set X := b2 _; set Z := b2 _.
have eX : bdiag 3 3 sector_ops_x sector_ops_x == X by vm_compute.
have eZ : bdiag 3 3 sector_ops_z sector_ops_z == Z by vm_compute.
rewrite (eqP eX) (eqP eZ) in el lb; split; [|exact: el|].
  by move: e; case: c_set_logical_ops_xz => [c1|] // [->].
by rewrite ec; exact: lb.
Qed.

(* The C4 code is a [4, 2, 2] code *)
Theorem C53_c4 : exists c st, c4_code = Some (c, st) /\ css_nkd 4 2 2 c st.
Proof. by have [c [st [e _ _ h]]] := @C53_iceberg 2 false isT; exists c, st. Qed.

(* The Steane code is a [7, 1, 3] code; its checks are those of the Hamming code and its logical operators are products of all
   X or all Z operators *)
Theorem C53_steane : exists c st, [/\ steane_code = Some (c, st), css_nkd 7 1 3 c st,
  c_x c = b2 [:: [:: 0;0;0;1;1;1;1]; [:: 0;1;1;0;0;1;1]; [:: 1;0;1;0;1;0;1]]%N /\ c_z c = c_x c,
  c_get_logical_ops c false = Some (bdiag 7 7 [:: nseq 7 1] [:: nseq 7 1])
  & logical_basis 7 1 (css_mat 7 (c_x c) (c_z c)) (bdiag 7 7 [:: nseq 7 1] [:: nseq 7 1])].
Proof.
set M := b2 _.
have eh : omap (fun h => (cc_n h.1, cc_mat h.1)) (hamming_code [:: 0; 1 : F2] 3) == Some (7%N, M) by vm_compute.
rewrite /steane_code; case: hamming_code eh => [[h dh]|//] /eqP [en eM].
have {}en : cc_n h = 7%N := en. have {}eM : cc_mat h = M := eM.
have wM : wf 7 M by []. have wO : wf 7 [:: nseq 7 1 : seq F2] by [].
have s0 : c_sub (mkcss 7 M M None) = false by vm_compute.
have h1 : isSome (c_set_logical_ops_xz (mkcss 7 M M (Some false)) [:: nseq 7 1] [:: nseq 7 1] true) by vm_compute.
have hd : c_dimension (mkcss 7 M M (Some false)) = 1%N by vm_compute.
have hx : c_search Pack.Swar (0 :: F2e) (mkcss 7 M M (Some false)) true = Some 3%N by vm_compute.
have hz : c_search Pack.Swar (0 :: F2e) (mkcss 7 M M (Some false)) false = Some 3%N by vm_compute.
have k0 : 1%N <> 0%N by []. have hN : (N.of_nat 7 < Pack.first_modulus Pack.Swar)%num by [].
have [c [[es ew] h2 hm lg lb]] := small_nkd wM wO k0 hN s0 h1 hd hx hz.
rewrite en eM es ew; exists c, (both_dist c 3); split; [reflexivity | exact: h2 | exact: hm | exact: lg | exact: lb].
Qed.

(* The C6 code is a [6, 2, 2] code *)
Theorem C53_c6 : exists c st, [/\ c6_code = Some (c, st), css_nkd 6 2 2 c st,
  c_get_logical_ops c false = Some (bdiag 6 6 (b2 [:: [:: 1;1;1;0;0;0]; [:: 0;0;0;1;1;1]]%N) (b2 [:: [:: 1;1;1;0;0;0]; [:: 0;0;0;1;1;1]]%N))
  & logical_basis 6 2 (css_mat 6 (c_x c) (c_z c))
      (bdiag 6 6 (b2 [:: [:: 1;1;1;0;0;0]; [:: 0;0;0;1;1;1]]%N) (b2 [:: [:: 1;1;1;0;0;0]; [:: 0;0;0;1;1;1]]%N))].
Proof.
rewrite /c6_code; set M := [:: [:: 1; _; _; _; _; _]; _]; set O := b2 _.
have eO : bdiag 3 3 [:: [:: 1; 1; 1]] [:: [:: 1; 1; 1]] == O by vm_compute.
rewrite (eqP eO).
have wM : wf 6 M by []. have wO : wf 6 O by [].
have s0 : c_sub (mkcss 6 M M None) = false by vm_compute.
have h1 : isSome (c_set_logical_ops_xz (mkcss 6 M M (Some false)) O O true) by vm_compute.
have hd : c_dimension (mkcss 6 M M (Some false)) = 2%N by vm_compute.
have hx : c_search Pack.Swar (0 :: F2e) (mkcss 6 M M (Some false)) true = Some 2%N by vm_compute.
have hz : c_search Pack.Swar (0 :: F2e) (mkcss 6 M M (Some false)) false = Some 2%N by vm_compute.
have k0 : 2%N <> 0%N by []. have hN : (N.of_nat 6 < Pack.first_modulus Pack.Swar)%num by [].
have [c [[es ew] h2 hm lg lb]] := small_nkd wM wO k0 hN s0 h1 hd hx hz.
rewrite es ew; exists c, (both_dist c 2); split; [reflexivity | exact: h2 | exact: lg | exact: lb].
Qed.

Lemma small_q n (M : mat) d (c := QCode n M false None None None (Some 1%N)) : wf (n + n) M -> any_anticommute n M = false ->
  q_dimension (mkq n M (Some false)) = 1%N -> (N.of_nat (n + n) < Pack.first_modulus Pack.Swar)%num ->
  q_exact Pack.Swar (0 :: F2e) (mkq n M (Some false)) None = Some (Dist d) ->
  [/\ q_ok c, commuting n M, counts n M 1 0 & is_qdist n M d].
Proof.
move=> wM s0 hd hN he; have cm : commuting n M by apply/(anticommP wM).
have ok0 : q_ok (mkq n M (Some false)) by apply: q_ok_mk.
have hc := dimension_counts ok0; rewrite hd in hc; have g0 := comm_gauge0 wM cm hc; rewrite g0 in hc.
have k0 : q_dimension (mkq n M (Some false)) <> 0%N by rewrite hd.
have hk : forall d, (None : option dvalue) = Some d -> exists2 j, d = Dist j & is_qdist n M j by [].
have [d' e' hq] := @q_exact_stab _ Pack.Swar F2e (mkq n M (Some false)) None ok0 (erefl _) F2_uniq F2_all (fun _ => hN) k0 hk.
have [e2] := etrans (esym e') he; subst d'.
have [w1 w2 w3 w4 w5] := ok0.
split=> //; split=> //= k [<-]; by exists 0%N.
Qed.

(* The five-qubit code is a [5, 1, 3] stabilizer code: what is stored about it is true *)
Theorem C53_five_qubit : exists c, [/\ five_qubit_code = Some (c, Dist 3), q_n c = 5%N /\ q_ok c, q_sub c = false /\ commuting 5 (q_mat c),
  q_mat c = b2 [:: [:: 1;0;0;1;0; 0;1;1;0;0]; [:: 0;1;0;0;1; 0;0;1;1;0]; [:: 1;0;1;0;0; 0;0;0;1;1]; [:: 0;1;0;1;0; 1;0;0;0;1]]%N
  & [/\ counts 5 (q_mat c) 1 0, q_dim c = Some 1%N & is_qdist 5 (q_mat c) 3]].
Proof.
set M := b2 _.
have em : omap (map (map to_F2)) (QuditText.from_strings (BinInt.Z.of_nat 2) five_strings) == Some M by vm_compute.
rewrite /five_qubit_code; case: QuditText.from_strings em => [m|//] /eqP [em]; rewrite em.
have sM : (size (head [::] M) %/ 2)%N = 5%N by vm_compute.
have wM : wf (5 + 5) M by vm_compute.
have s0 : any_anticommute 5 M = false by vm_compute.
have hd : q_dimension (mkq 5 M (Some false)) = 1%N by vm_compute.
have he : q_exact Pack.Swar (0 :: F2e) (mkq 5 M (Some false)) None = Some (Dist 3) by vm_compute.
have hN : (N.of_nat (5 + 5) < Pack.first_modulus Pack.Swar)%num by vm_compute.
have [ok cm hc hq] := small_q wM s0 hd hN he.
rewrite sM; exists (QCode 5 M false None None None (Some 1%N)).
split; [reflexivity | split; [reflexivity | exact: ok] | split; [reflexivity | exact: cm] | reflexivity | split; [exact: hc | reflexivity | exact: hq]].
Qed.

(* the hypothesis of the first theorem holds for the size of the C4 code, and the theorems about single codes have none *)
Example ex_C53 : (1 < 2)%N /\ isSome (iceberg_code 3 true) /\ isSome (iceberg_code 5 false).
Proof. by split=> //; split; vm_compute. Qed.

Print Assumptions C53_iceberg.
Print Assumptions C53_iceberg_trivial.
Print Assumptions C53_iceberg_alternative.
Print Assumptions C53_c4.
Print Assumptions C53_steane.
Print Assumptions C53_c6.
Print Assumptions C53_five_qubit.
