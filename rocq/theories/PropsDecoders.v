(* Properties C62 - C66: decoders. *)
From mathcomp Require Import all_ssreflect all_algebra zify.
From Verif Require Import LinAlg RowReduce Classical ClassicalProofs Symplectic Quantum QuantumProofs Lookup GUF Decoders.
From Verif Require Import PropsClassical PropsQuantum.
Set Implicit Arguments.
Unset Strict Implicit.
Unset Printing Implicit Defensive.
Import GRing.Theory.
Local Open Scope ring_scope.

Section Props.
Variable F : fieldType.
Notation vec := (seq F).
Notation mat := (seq (seq F)).

(* C62.  rep = 1: errors of a classical code, weighted by the number of nonzero entries; rep = 2: errors [x|z] of a quantum code,
   weighted by the number of qudits.  Missing for the full statement: the zero syndrome, see C62_zero and the refutation *)
Theorem C62_lookup_partial (el : vec) rep n (H : mat) W s e0 : field_list el -> wf (rep * n) H ->
  size e0 = (rep * n)%N -> (swt rep n e0 <= W)%N -> mulmv H e0 = s ->
  (s <> vzero F (size H) \/ forall e, size e = (rep * n)%N -> (0 < swt rep n e <= W)%N -> mulmv H e <> vzero F (size H)) ->
  let r := lookup_decode el rep n H W s in
  [/\ size r = (rep * n)%N, mulmv H r = s & forall e, size e = (rep * n)%N -> mulmv H e = s -> (swt rep n r <= swt rep n e)%N].
Proof. exact: lookup_min. Qed.

(* the zero syndrome is decoded to zero iff no nonzero error of weight at most max_weight has zero syndrome *)
Theorem C62_zero (el : vec) rep n (H : mat) W : field_list el -> wf (rep * n) H ->
  lookup_decode el rep n H W (vzero F (size H)) = vzero F (rep * n) <->
  (forall e, size e = (rep * n)%N -> (0 < swt rep n e <= W)%N -> mulmv H e <> vzero F (size H)).
Proof. exact: lookup_zero. Qed.

Theorem C62_untabulated (el : vec) rep n (H : mat) W s : field_list el ->
  (forall e, size e = (rep * n)%N -> (swt rep n e <= W)%N -> mulmv H e <> s) ->
  lookup_decode el rep n H W s = vzero F (rep * n).
Proof. exact: lookup_none. Qed.

(* up to half of the distance errors are corrected *)
Theorem C62_corrects (el : vec) n (H : mat) d (e : vec) : field_list el -> wf n H -> is_dist n H d ->
  size e = n -> (hwt e <= (d - 1) %/ 2)%N -> lookup_classical el n H ((d - 1) %/ 2) (mulmv H e) = e.
Proof. exact: lookup_corrects. Qed.

Theorem C62_corrects_symplectic (el : vec) n (H : mat) d (e : vec) : field_list el -> wf (n + n) H ->
  (forall v, size v = (n + n)%N -> (forall r, r \in H -> symp n r v = 0) -> ~ span (n + n) H v -> (d <= qwt n v)%N) ->
  size e = (n + n)%N -> (qwt n e <= (d - 1) %/ 2)%N ->
  let r := lookup_symplectic el n H ((d - 1) %/ 2) (mulmv (symplectic_conjugate n H) e) in
  size r = (n + n)%N /\ span (n + n) H (vsub e r).
Proof. exact: lookup_corrects_symplectic. Qed.

(* C63.  t is the table of the decoder, hist the list of arrays that callers obtained from decode (by syndrome) and overwrote.
   Missing for the full statement: syndromes whose array has been overwritten, see the refutation *)
Theorem C63_alias_partial (t hist : seq (vec * vec)) s dflt : (forall sv, sv \in hist -> sv.1 <> s) \/ s \notin map fst t ->
  decode_after t hist s dflt = dget t s dflt.
Proof. exact: decode_after_ok. Qed.

(* C64: H is the matrix that is multiplied to errors (rep = 1), or the symplectic conjugate of the checks (rep = 2) *)
Theorem C64_guf (el : vec) rep n (H : mat) mw s e : wf (rep * n) H -> size e = (rep * n)%N -> mulmv H e = s ->
  exists r, [/\ guf_decode el rep n H mw s = Some r, size r = (rep * n)%N & mulmv H r = s].
Proof. by move=> wH se he; exact: (guf_ok el wH mw se he). Qed.

Theorem C64_unachievable (el : vec) rep n (H : mat) mw s r : wf (rep * n) H -> size s = size H ->
  (forall e, size e = (rep * n)%N -> mulmv H e <> s) -> guf_decode el rep n H mw s = Some r -> r = vzero F (rep * n).
Proof. by move=> wH ss no e; exact: (@guf_none _ el _ _ _ wH mw s r ss no e). Qed.

(* C66 *)
Theorem C66_block (T S : Type) L (dec : seq T -> option (seq S)) ss es : L != 0%N -> ss <> [::] ->
  all (fun s => size s == L) ss -> [seq dec s | s <- ss] = [seq Some e | e <- es] ->
  block_decode L dec (flatten ss) = Some (flatten es).
Proof. exact: block_decode_flatten. Qed.

Theorem C66_block_stack n (H : mat) (dec : vec -> option vec) ss : H <> [::] -> wf n H -> ss <> [::] ->
  all (fun s => size s == size H) ss ->
  (forall s, s \in ss -> exists2 e, dec s = Some e & size e = n /\ mulmv H e = s) ->
  exists e, [/\ block_decode (size H) dec (flatten ss) = Some e, size e = (size ss * n)%N &
    mulmv (cc_mat (stack (nseq (size ss) (mkcode n H)))) e = flatten ss].
Proof.
move=> h1 h2 h3 h4 h5; have [e [e1 e2 e3]] := block_decode_stack h1 h2 h3 h4 h5.
by exists e; split=> //; rewrite -[RHS]e3 /stack /= map_nseq.
Qed.

Theorem C66_direct n (H : mat) (dec : vec -> option vec) w e : wf n H -> size w = n ->
  dec (mulmv H w) = Some e -> size e = n -> mulmv H e = mulmv H w ->
  exists2 r, direct_decode H dec w = Some r & is_word n H r /\ vsub w r = e.
Proof. exact: direct_decode_word. Qed.
End Props.

Theorem C66_direct_int n (H : seq (seq int)) (dec : seq int -> option (seq int)) w e : wf n H -> size w = n ->
  dec [seq (x %% 2)%Z | x <- mulmv H w] = Some e -> size e = n ->
  [seq (x %% 2)%Z | x <- mulmv H e] = [seq (x %% 2)%Z | x <- mulmv H w] ->
  exists r, [/\ direct_decode_int H dec w = Some r, size r = n, all (fun x => (x == 0) || (x == 1)) r &
    forall h, h \in H -> (2 %| \sum_(j < n) ((nth 0 h j : int) * nth 0 r j))%Z].
Proof. exact: direct_decode_int_word. Qed.

(* C65, soundness for all q: a solution of the program has the right syndrome *)
Theorem C65_sound q n H s x : ilp_optimal q H s n x -> solves q H s n x.
Proof. exact: ilp_sound. Qed.
(* C65, exactness.  Missing for the full statement: heavy checks for q > 2, see the refutation *)
Theorem C65_exact_partial q n H s x : (1 < q)%N -> reduced q n H s ->
  q = 2%N \/ (forall i, (i < size H)%N -> (sumn (nth [::] H i) * (q - 1) < nth 0%N s i + 2 * q)%N) ->
  (feasible q H s n x <-> solves q H s n x) /\
  (ilp_optimal q H s n x <-> solves q H s n x /\ forall x', solves q H s n x' -> (weight x <= weight x')%N).
Proof. by move=> q1 r h; split; [apply: feasible_iff | apply: ilp_exact]. Qed.

(* ------------------------------------------------------------------------ refutations *)
Lemma fl2 : field_list [:: 0; 1 : 'F_2].
Proof. by split=> //; case=> [[|[|x]]] // h. Qed.
Lemma fl3 : field_list [:: 0; 1; 2%:R : 'F_3].
Proof. by split=> //; case=> [[|[|[|x]]]] // h. Qed.

(* C62 is false for the zero syndrome if max_weight reaches the distance *)
Theorem C62_lookup_refuted : exists (el : seq 'F_2) n (H : seq (seq 'F_2)) W s,
  [/\ field_list el, wf n H, mulmv H (nseq n 0) = s & (0 < hwt (lookup_classical el n H W s))%N].
Proof.
exists [:: 0; 1], 2%N, [:: [:: 1; 1]], 2%N, [:: 0]; split; [exact: fl2 | by [] | by apply/eqP; vm_compute | by vm_compute].
Qed.

(* C63 is false: decode, write to the result, decode again *)
Theorem C63_alias_refuted : exists (el : seq 'F_2) n (H : seq (seq 'F_2)) W s v,
  [/\ field_list el, wf n H, size v = n &
  let t := table el 1 n H W in let d := nseq n 0 in
  decode_after t [:: (s, v)] s d <> decode_after t [::] s d].
Proof.
exists [:: 0; 1], 3%N, (cc_mat rep3), 1%N, [:: 1; 0], [:: 1; 1; 1]; split=> //; first exact: fl2.
Qed.

(* C65 is false for q = 3: the checks x0 + x1 + x2 = 0, x0 = x1 = x2 = 2 have a solution, but the program has none *)
Theorem C65_exact_refuted : exists q n H s x,
  [/\ prime q, reduced q n H s, solves q H s n x & forall y, ~ feasible q H s n y].
Proof.
exists 3%N, 3%N, [:: [:: 1; 1; 1]; [:: 1; 0; 0]; [:: 0; 1; 0]; [:: 0; 0; 1]]%N, [:: 0; 2; 2; 2]%N, [:: 2; 2; 2]%N.
split=> //; first by split=> //; case=> [|[|[|[|i]]]].
case=> [|a [|b [|c [|d y]]]]; case=> // _ _ h.
have h1 := h 1%N isT; have h2 := h 2%N isT; have h3 := h 3%N isT; have h0 := h 0%N isT.
have key r s : max_power 3 (sumn r * (3 - 1))%N s = Some 0%N -> row_constraint 3 r s [:: a; b; c] -> ndot r [:: a; b; c] = s.
  by move=> e [m [sl [e' ss ->]]]; move: e'; rewrite e => -[e0]; move: ss; rewrite -e0 => /size0nil ->; rewrite addn0.
have {h1} := @key [:: 1; 0; 0]%N 2%N erefl h1; have {h2} := @key [:: 0; 1; 0]%N 2%N erefl h2; have {h3} := @key [:: 0; 0; 1]%N 2%N erefl h3.
rewrite /ndot /=; case: h0 => m [sl [em sm]]; have em1 : m = 1%N by case: em.
by rewrite em1 in sm; case: sl sm => [|u [|v sl]] // _; rewrite /ndot /slack /=; case: u; lia.
Qed.

(* ---------------------------------------------------------------------------- examples *)
Example ex_C62 : let H := cc_mat hamming in let e := [:: 0; 0; 0; 0; 1; 0; 0] : seq 'F_2 in
  [/\ field_list [:: 0; 1 : 'F_2], wf (1 * 7) H, (swt 1 7 e <= 1)%N & mulmv H e <> nseq (size H) 0].
Proof. by split; [exact: fl2 | | vm_compute | apply/eqP; vm_compute]. Qed.
Example ex_C62_zero : field_list [:: 0; 1; 2%:R : 'F_3] /\ wf (1 * 3) (cc_mat redundant).
Proof. by split; first exact: fl3. Qed.
Example ex_C62_untabulated : forall e, size e = (1 * 3)%N -> (swt 1 3 e <= 0)%N -> mulmv (cc_mat rep3) e <> [:: 1; 1].
Proof.
move=> e se; rewrite leqn0 => /eqP /(swt0 se) ->; by apply/eqP; vm_compute.
Qed.
Example ex_C62_corrects : is_dist 3 (cc_mat rep3) 3 /\ (hwt ([:: 0; 1; 0]%R : seq 'F_2) <= (3 - 1) %/ 2)%N.
Proof.
split; last by vm_compute.
pose words : seq (seq 'F_2) := [:: [:: 0; 0; 0]; [:: 1; 1; 1]].
have all_words w : is_word 3 (cc_mat rep3) w -> w \in words.
  case=> sw h; have := h _ (mem_head _ _); have := h (nth [::] (cc_mat rep3) 1); rewrite mem_nth // => /(_ isT).
  case: w sw {h} => [|a [|b [|c [|d w]]]] // _; rewrite !big_ord_recl !big_ord0 /=.
  rewrite !mulr1n !mulr0n !mul0r !mul1r !add0r !addr0 => e1 e2.
  have two (x : 'F_2) : x + x = 0 by case: x => [[|[|x]]] // hx; apply/val_inj.
  have eb : b = a by rewrite -[b]add0r -(two a) -addrA e2 addr0.
  have ec : c = a by rewrite -[c]add0r -(two b) -addrA e1 addr0.
  have [z | z] : a = 0 \/ a = 1 by case: (a) => [[|[|x]]] // hx; [left | right]; apply/val_inj.
    by rewrite ec eb z.
  by rewrite ec eb z.
split.
  exists [:: 1; 1; 1]; split; [ | by exists 0%N | by vm_compute].
  split=> // r; rewrite !inE => /orP [] /eqP ->; rewrite !big_ord_recl big_ord0; by apply/eqP.
move=> w /all_words; rewrite !inE => /orP [] /eqP ->; last by vm_compute.
by case=> [[|[|[|i]]]] /=; rewrite ?nth_nil; case.
Qed.
Example ex_C62_symplectic : forall v, size v = (5 + 5)%N -> (forall r, r \in q_mat five_qubit -> symp 5 r v = 0) ->
  ~ span (5 + 5) (q_mat five_qubit) v -> (3 <= qwt 5 v)%N.
Proof.
move=> v sv hc nsp.
have wH : wf (5 + 5) (q_mat five_qubit) by [].
have hz : mulmv (symplectic_conjugate 5 (q_mat five_qubit)) v = nseq 4 0 by apply/(mulmv_conj wH sv).
have : all (fun v => (mulmv (symplectic_conjugate 5 (q_mat five_qubit)) v == nseq 4 0) ==> (v == nseq 10 0) || (3 <= qwt 5 v)%N)
  (iproduct [:: 0; 1 : 'F_2] 10) by vm_compute.
move=> /allP /(_ v); rewrite mem_iproduct sv eqxx /= => /(_ _) h.
have {h} : (mulmv (symplectic_conjugate 5 (q_mat five_qubit)) v == nseq 4 0) ==> (v == nseq 10 0) || (3 <= qwt 5 v)%N.
  by apply: h; apply/allP => x _; have [_ h _] := fl2; exact: h.
rewrite hz eqxx /= => /orP [/eqP z | //]; case: nsp; apply/spanP; split=> //.
have -> : rv (5 + 5) v = 0 by rewrite z; exact: (rv_zero _ _ 10).
exact: sub0mx.
Qed.
Example ex_C63 : let t := table [:: 0; 1 : 'F_2] 1 3 (cc_mat rep3) 1 in
  exists s, s \in map fst t /\ forall sv, sv \in [:: ([:: 0; 1 : 'F_2], [:: 1; 1; 1 : 'F_2])] -> sv.1 <> s.
Proof.
exists [:: 1; 0]; split; first by vm_compute.
by move=> sv; rewrite inE => /eqP ->; apply/eqP; vm_compute.
Qed.
(* the decoder runs, with and without max_weight, on the Hamming code, on trits and on the five-qubit code *)
Example ex_C64 : [/\ guf_decode [:: 0; 1] 1 7 (cc_mat hamming) None [:: 1; 0; 1] <> None,
  guf_decode [:: 0; 1] 1 7 (cc_mat hamming) (Some 1%N) [:: 1; 0; 1] = Some [:: 0; 0; 0; 0; 1; 0; 0] &
  guf_decode [:: 0; 1] 2 5 (symplectic_conjugate 5 (q_mat five_qubit)) (Some 1%N) [:: 1; 0; 0; 1] <> None].
Proof. by split; apply/eqP; vm_compute. Qed.
Example ex_C64_unachievable : guf_decode [:: 0; 1; 2%:R] 1 3 (cc_mat redundant) None [:: 1; 1; 0] = Some [:: 0; 0; 0].
Proof. by apply/eqP; vm_compute. Qed.
Example ex_C65 : reduced 2 3 [:: [:: 1; 1; 0]; [:: 0; 1; 1]]%N [:: 1; 1]%N /\
  reduced 3 2 [:: [:: 1; 2]]%N [:: 1]%N /\ (sumn [:: 1; 2] * (3 - 1) < 1 + 2 * 3)%N.
Proof. by []. Qed.
Definition rep3_dec (s : seq 'F_2) : option (seq 'F_2) := Some (lookup_classical [:: 0; 1] 3 (cc_mat rep3) 1 s).
Example ex_C66 : forall s, s \in [:: [:: 1; 0]; [:: 1; 1]; [:: 0; 0]] ->
  exists2 e, rep3_dec s = Some e & size e = 3%N /\ mulmv (cc_mat rep3) e = s.
Proof.
move=> s; rewrite !inE => /or3P [] /eqP ->; (eexists; [by [] | split; apply/eqP; by vm_compute]).
Qed.
Example ex_C66_direct : exists2 e, rep3_dec (mulmv (cc_mat rep3) [:: 1; 0; 1]) = Some e &
  size e = 3%N /\ mulmv (cc_mat rep3) e = mulmv (cc_mat rep3) [:: 1; 0; 1].
Proof. by eexists; [by [] | split; apply/eqP; vm_compute]. Qed.
Example ex_C66_int : [seq (x %% 2)%Z | x <- mulmv [:: [:: 1; 1; 0]; [:: 0; 1; 1]] [:: 0; 1; 0 : int]] =
  [seq (x %% 2)%Z | x <- mulmv [:: [:: 1; 1; 0]; [:: 0; 1; 1]] [:: 1; 0; 1 : int]].
Proof. by []. Qed.

Print Assumptions C62_lookup_partial.
Print Assumptions C62_zero.
Print Assumptions C62_untabulated.
Print Assumptions C62_corrects.
Print Assumptions C62_corrects_symplectic.
Print Assumptions C62_lookup_refuted.
Print Assumptions C63_alias_partial.
Print Assumptions C63_alias_refuted.
Print Assumptions C64_guf.
Print Assumptions C64_unachievable.
Print Assumptions C65_sound.
Print Assumptions C65_exact_partial.
Print Assumptions C65_exact_refuted.
Print Assumptions C66_block.
Print Assumptions C66_block_stack.
Print Assumptions C66_direct.
Print Assumptions C66_direct_int.
