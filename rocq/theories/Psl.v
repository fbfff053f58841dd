(* Projective special linear groups (abstract.py:1377-1491). *)
From mathcomp Require Import all_ssreflect all_algebra all_field zify ring.
From mathcomp Require Import mxtens.
From Verif Require Import LinAlg Classical ClassicalProofs Kron PermGroup GroupTable GroupTerm SlGen.
Set Implicit Arguments.
Unset Strict Implicit.
Unset Printing Implicit Defensive.
Import GRing.Theory.
Local Open Scope ring_scope.

Section Model.
Variable F : fieldType.
(* abstract.py:1402-1404: the roots of unity, and 1484-1486: the same powers, but counted up to the dimension *)
Definition psl_root (pe : F) (q d : nat) : F := pe ^+ (q.-1 %/ gcdn d q.-1).
Definition psl_roots (pe : F) (q d : nat) : seq F := [seq psl_root pe q d ^+ k | k <- iota 0 (gcdn d q.-1)].
Definition psl_roots_iter (pe : F) (q d : nat) : seq F := [seq psl_root pe q d ^+ k | k <- iota 0 d].
(* abstract.py:1408-1412: the orbits of the nonzero vectors; a frozenset is a list of its members *)
Definition psl_orbit (roots : seq F) (v : vec F) : seq (vec F) := [seq vscale r v | r <- roots].
Definition psl_orbits (roots el : seq F) (d : nat) : seq (seq (vec F)) :=
  behead [seq psl_orbit roots v | v <- product el d].
(* abstract.py:1413 and 1490: set(orbits) lists the orbits once each, in any order; next(iter(orbit)) is any member.  Both
   choices are those of the hash table, so every possible result is considered *)
Definition set_of (T : eqType) (s os : seq (seq T)) : Prop :=
  [/\ {subset os <= s}, forall o, o \in s -> exists2 o', o' \in os & o' =i o
    & forall i j, (i < size os)%N -> (j < size os)%N -> nth [::] os i =i nth [::] os j -> i = j].
Definition picks (T : eqType) (dflt : T) (os : seq (seq T)) (t : seq T) : Prop :=
  size t = size os /\ forall i, (i < size os)%N -> nth dflt t i \in nth [::] os i.
Definition psl_space (roots el : seq F) (d : nat) (T : seq (vec F)) : Prop :=
  exists2 os, set_of (psl_orbits roots el d) os & picks [::] os T.
(* abstract.py:1419-1424: where a matrix moves a vector: the first multiple of the product that is in the target space.
   (The code raises StopIteration if there is none; C87 shows that there is one.) *)
Definition psl_next (roots : seq F) (T : seq (vec F)) (A : mat F) (v : vec F) : vec F :=
  head [::] [seq w <- [seq mulmv (mscale r A) v | r <- roots] | w \in T].
Definition psl_perm (roots : seq F) (T : seq (vec F)) (A : mat F) : perm := [seq index (psl_next roots T A v) T | v <- T].
(* abstract.py:1428-1442: the lift; list.index raises ValueError if a basis vector is not in the target space *)
Definition psl_lift (T : seq (vec F)) (d : nat) (p : perm) : option (mat F) :=
  if all (fun e => unit_vec F d e \in T) (iota 0 d) then Some (sl_lift T d p) else None.
(* abstract.py:1474-1491: iter_mats; np.frombuffer yields a flat array.  External: the determinant *)
Definition psl_mat_orbits (roots : seq F) (mats : seq (mat F)) : seq (seq (vec F)) :=
  [seq [seq flatten (mscale r A) | r <- roots] | A <- mats].
Definition psl_iter (roots : seq F) (mats : seq (mat F)) (out : seq (vec F)) : Prop :=
  exists2 os, set_of (psl_mat_orbits roots mats) os & picks [::] os out.
End Model.
(* abstract.py:1461-1472: get_generating_mats.  External: the inverse of a matrix *)
Definition psl_gens (F : finFieldType) (d q : nat) (pe : F) : seq (mat F) :=
  if q == 2%N then sl_gens d q pe else [seq kron (lmx (invmx (mx d d A))) A | A <- sl_gens d q pe].

(* ------------------------------------------------------------------------ roots of unity *)
Section Roots.
Variables (F : finFieldType) (pe : F) (d : nat).
Hypotheses (p0 : pe != 0) (prim : forall x : F, x != 0 -> exists k, x = pe ^+ k) (d0 : (0 < d)%N).
Local Notation q := #|F|.
Lemma q1 : (0 < q.-1)%N.
Proof. by rewrite -subn1 subn_gt0; apply: finRing_gt1. Qed.
Lemma pe_prim : q.-1.-primitive_root pe.
Proof.
have pq : pe ^+ q.-1 = 1.
  by apply: (mulfI p0); rewrite -exprS prednK ?expf_card ?mulr1 // (leq_trans _ (leq_pred _)) // q1.
have [m mp mq] := prim_order_exists q1 pq.
suff -> : q.-1 = m by [].
apply/eqP; rewrite eqn_leq (dvdn_leq q1 mq) andbT.
have -> : q.-1 = #|[set x : F | x != 0]| by rewrite cardsE cardC1.
rewrite -[m](size_iota 0) -(size_map (fun i => pe ^+ i)); apply: leq_trans (card_size _).
apply: subset_leq_card; apply/subsetP => x; rewrite inE => /prim [k ->]; apply/mapP; exists (k %% m)%N.
  by rewrite mem_iota ltn_mod (prim_order_gt0 mp).
by rewrite (prim_expr_mod mp).
Qed.
Local Notation g := (gcdn d q.-1).
Lemma g0 : (0 < g)%N. Proof. by rewrite gcdn_gt0 d0. Qed.
Lemma root_prim : g.-primitive_root (psl_root pe q d).
Proof. apply: dvdn_prim_root; [exact: pe_prim | exact: dvdn_gcdr]. Qed.
Lemma unity r : r ^+ d = 1 -> exists k, r = psl_root pe q d ^+ k.
Proof.
move=> e; have r0 : r != 0 by apply: contra_eq_neq e => ->; rewrite expr0n eqn0Ngt d0 /= eq_sym oner_neq0.
have [k ek] := prim r0; move: e; rewrite ek -exprM => /eqP; rewrite -(prim_order_dvd pe_prim) => h.
have h' : (q.-1 %/ g %| k)%N.
  have c : coprime (q.-1 %/ g) (d %/ g).
    rewrite /coprime -(eqn_pmul2r g0) muln_gcdl !divnK ?dvdn_gcdr ?dvdn_gcdl // mul1n gcdnC; exact: eqxx.
  by rewrite -(Gauss_dvdl _ c) -(dvdn_pmul2r g0) divnK ?dvdn_gcdr // -mulnA divnK // dvdn_gcdl.
by exists (k %/ (q.-1 %/ g))%N; rewrite -exprM mulnC divnK.
Qed.
Lemma mem_roots_gen m r : (g <= m)%N -> (r \in [seq psl_root pe q d ^+ k | k <- iota 0 m]) = (r ^+ d == 1).
Proof.
move=> gm; apply/mapP/eqP => [[k _ ->] | /unity [k ->]].
  by apply/eqP; rewrite -exprM -(prim_order_dvd root_prim) dvdn_mull // dvdn_gcdl.
exists (k %% g)%N; last by rewrite (prim_expr_mod root_prim).
by rewrite mem_iota /= add0n (leq_trans _ gm) // ltn_mod g0.
Qed.
Lemma mem_roots r : (r \in psl_roots pe q d) = (r ^+ d == 1). Proof. exact: mem_roots_gen. Qed.
Lemma mem_roots_iter r : (r \in psl_roots_iter pe q d) = (r ^+ d == 1).
Proof. by apply: mem_roots_gen; rewrite dvdn_leq // dvdn_gcdl. Qed.
Lemma uniq_roots : uniq (psl_roots pe q d).
Proof.
rewrite map_inj_in_uniq ?iota_uniq // => i j; rewrite !mem_iota /= !add0n => hi hj /eqP.
by rewrite (eq_prim_root_expr root_prim) !modn_small // => /eqP.
Qed.
End Roots.

(* -------------------------------------------------------------------------- the action *)
Section Scale.
Variable F : fieldType.
Lemma vscaleA (r s : F) v : vscale r (vscale s v) = vscale (r * s) v.
Proof. by rewrite /vscale -map_comp; apply: eq_map => x /=; rewrite mulrA. Qed.
Lemma vscale1 (v : vec F) : vscale 1 v = v.
Proof. by rewrite /vscale (eq_map (@mul1r _)) map_id. Qed.
Lemma mulmv_scale d (A : mat F) r v : wf d A -> size v = d -> mulmv (mscale r A) v = vscale r (mulmv A v).
Proof.
move=> wA sv; rewrite /mulmv /mscale /vscale -!map_comp; apply/eq_in_map => u /(allP wA) /eqP su /=.
by rewrite !(@dotE _ d) ?size_map // mulr_sumr; apply: eq_bigr => i _; rewrite nth_vscale mulrA.
Qed.
Lemma mulmv_vscale d (A : mat F) r v : wf d A -> size v = d -> mulmv A (vscale r v) = vscale r (mulmv A v).
Proof.
move=> wA sv; rewrite /mulmv [RHS]/vscale -map_comp; apply/eq_in_map => u /(allP wA) /eqP su /=.
by rewrite !(@dotE _ d) ?size_map // mulr_sumr; apply: eq_bigr => i _; rewrite nth_vscale mulrCA.
Qed.
Lemma vscale_nz d (r : F) v : r != 0 -> size v = d -> v != nseq d 0 -> vscale r v != nseq d 0.
Proof.
move=> r0 sv; apply: contraNneq => e; have := congr1 (vscale r^-1) e; rewrite vscaleA mulVf // vscale1 => ->.
by rewrite /vscale map_nseq mulr0.
Qed.
End Scale.

Section Action.
Variables (F : finFieldType) (d : nat) (roots : seq F) (T : seq (vec F)).
Hypotheses (d0 : (0 < d)%N) (rootsE : forall r, (r \in roots) = (r ^+ d == 1)).
Lemma root1 : 1 \in roots. Proof. by rewrite rootsE expr1n. Qed.
Lemma rootM r s : r \in roots -> s \in roots -> r * s \in roots.
Proof. by rewrite !rootsE exprMn => /eqP -> /eqP ->; rewrite mulr1. Qed.
Lemma root_nz r : r \in roots -> r != 0.
Proof. rewrite rootsE; apply: contraTneq => ->; by rewrite expr0n eqn0Ngt d0 /= eq_sym oner_neq0. Qed.
Lemma rootV r : r \in roots -> r^-1 \in roots.
Proof. by rewrite !rootsE exprVn => /eqP ->; rewrite invr1. Qed.
Definition nzvec (v : vec F) := (size v == d) && (v != nseq d 0).
Lemma nz_scale r v : r \in roots -> nzvec v -> nzvec (vscale r v).
Proof. by move=> /root_nz r0 /andP [/eqP sv nz]; rewrite /nzvec size_vscale sv eqxx (vscale_nz r0). Qed.

(* a set of orbits, and one member of each: a system of representatives *)
Lemma repsP (V : seq (vec F)) os : (forall r v, r \in roots -> v \in V -> vscale r v \in V) ->
  set_of [seq psl_orbit roots v | v <- V] os -> picks [::] os T ->
  [/\ uniq T, forall v, v \in T -> v \in V, forall v, v \in V -> exists2 r, r \in roots & vscale r v \in T
    & forall r v, r \in roots -> v \in T -> vscale r v \in T -> vscale r v = v].
Proof.
move=> cl [sub all_o dist] [sT pT].
have osE i : (i < size os)%N -> exists2 v, v \in V & nth [::] os i = psl_orbit roots v.
  by move=> hi; apply/mapP; apply: sub; apply: mem_nth.
have orbT i : (i < size os)%N -> nth [::] T i \in V /\ nth [::] os i =i psl_orbit roots (nth [::] T i).
  move=> hi; have := pT i hi; have [v hv ->] := osE i hi; case/mapP => r hr ->; split; first exact: cl.
  move=> w; apply/mapP/mapP => [[s hs ->] | [s hs ->]].
    by exists (s * r^-1); rewrite ?rootM ?rootV // vscaleA mulfVK // root_nz.
  by exists (s * r); rewrite ?rootM // vscaleA.
have same i j r : (i < size os)%N -> (j < size os)%N -> r \in roots -> nth [::] T j = vscale r (nth [::] T i) -> i = j.
  move=> hi hj hr e; apply: dist => // w; have [_ ->] := orbT i hi; have [_ ->] := orbT j hj; rewrite e.
  apply/mapP/mapP => [[s hs ->] | [s hs ->]].
    by exists (s * r^-1); rewrite ?rootM ?rootV // vscaleA mulfVK // root_nz.
  by exists (s * r); rewrite ?rootM // vscaleA.
split.
- by apply/(uniqP [::]) => i j; rewrite !inE sT => hi hj e; apply: (same i j 1); rewrite ?root1 // vscale1.
- by move=> v /(nthP [::]) [i]; rewrite sT => /orbT [h _] <-.
- move=> v hv; have : psl_orbit roots v \in [seq psl_orbit roots v | v <- V] by apply: map_f.
  case/all_o => o /(nthP [::]) [i hi <-] e; have := pT i hi; rewrite e => /mapP [r hr er]; exists r => //.
  by rewrite -er mem_nth // sT.
move=> r v hr /(nthP [::]) [i hi ei] /(nthP [::]) [j hj ej]; move: hi hj; rewrite sT => hi hj.
by rewrite -{2}ei -ej (same i j r) // ei.
Qed.

(* the target space *)
Lemma spaceP (el : seq F) : uniq (0 :: el) -> (forall x, x \in 0 :: el) -> psl_space roots (0 :: el) d T ->
  [/\ uniq T, forall v, v \in T -> nzvec v, forall v, nzvec v -> exists2 r, r \in roots & vscale r v \in T
    & forall r v, r \in roots -> v \in T -> vscale r v \in T -> vscale r v = v].
Proof.
move=> uel ael [os so pT]; move: so; rewrite /psl_orbits behead_map => so.
have mp v : (v \in behead (product (0 :: el) d)) = nzvec v.
  have := uniq_product d uel; rewrite product_head /= => /andP [n0 up].
  have := mem_product (0 :: el) d v; rewrite (_ : all _ v) ?andbT; last by apply/allP => x _; apply: ael.
  by rewrite product_head in_cons /nzvec; case: (eqVneq v (nseq d 0)) => [-> _ | _ <-]; rewrite ?andbF ?andbT //; apply/negbTE.
have cl r v : r \in roots -> v \in behead (product (0 :: el) d) -> vscale r v \in behead (product (0 :: el) d).
  by rewrite !mp; apply: nz_scale.
have [h1 h2 h3 h4] := repsP cl so pT; split=> // [v /h2 | v hv]; first by rewrite mp.
by apply: h3; rewrite mp.
Qed.

Hypotheses (uT : uniq T) (nT : forall v, v \in T -> nzvec v)
  (rT : forall v, nzvec v -> exists2 r, r \in roots & vscale r v \in T)
  (iT : forall r v, r \in roots -> v \in T -> vscale r v \in T -> vscale r v = v).
Local Notation N := (size T).
Local Notation nxt := (psl_next roots T).
Local Notation pp := (psl_perm roots T).
Local Notation sq := (square d).
Lemma szT v : v \in T -> size v = d. Proof. by move/nT => /andP [/eqP]. Qed.
Lemma eqT r s v w : r \in roots -> s \in roots -> v \in T -> w \in T -> vscale r v = vscale s w -> v = w.
Proof.
move=> hr hs hv hw e; have e' : v = vscale (r^-1 * s) w by rewrite -vscaleA -e vscaleA mulVf ?vscale1 // root_nz.
by rewrite e'; apply: iT => //; rewrite ?rootM ?rootV // -e'.
Qed.
Lemma sq_nz A v : sq A -> nzvec v -> nzvec (mulmv A v).
Proof.
case/andP => /andP [/eqP sA wA] uA /andP [/eqP sv nz]; rewrite /nzvec size_mulmv sA eqxx /=.
apply: contraNneq nz => e; have := cv_mulmv sA wA sv; rewrite e => h.
have z : mx d d A *m cv d v = 0 by rewrite -h; apply/colP => i; rewrite !mxE nth_nseq; case: ifP.
have := congr1 (mulmx (invmx (mx d d A))) z; rewrite mulmxA mulVmx // mul1mx mulmx0 => /colP h0.
apply/eqP; apply: (@eq_from_nth _ 0); rewrite ?size_nseq // => i; rewrite sv => hi; have := h0 (Ordinal hi).
by rewrite !mxE /= nth_nseq hi.
Qed.
Lemma sqwf (A : mat F) : sq A -> wf d A. Proof. by case/andP => /andP []. Qed.
Lemma nextP A v : sq A -> v \in T -> nxt A v \in T /\ exists2 r, r \in roots & nxt A v = vscale r (mulmv A v).
Proof.
move=> qA hv; rewrite /psl_next; set s := filter _ _.
have s0 : s != [::].
  have [r hr hm] := rT (sq_nz qA (nT hv)); rewrite -has_filter; apply/hasP.
  by exists (mulmv (mscale r A) v); [apply: map_f | rewrite (mulmv_scale _ (sqwf qA) (szT hv))].
have : head [::] s \in s by case: s s0 => // x s _; rewrite mem_head.
rewrite mem_filter => /andP [-> /mapP [r hr ->]]; split=> //; exists r => //.
by rewrite (mulmv_scale _ (sqwf qA) (szT hv)).
Qed.
Lemma nextE A v w r : sq A -> v \in T -> w \in T -> r \in roots -> w = vscale r (mulmv A v) -> nxt A v = w.
Proof.
move=> qA hv hw hr e; have [hn [s hs en]] := nextP qA hv; apply: (eqT hr hs hn hw).
by rewrite en e !vscaleA mulrC.
Qed.
Lemma pp_nth A i : (i < N)%N -> nth 0%N (pp A) i = index (nxt A (nth [::] T i)) T.
Proof. by move=> hi; rewrite (nth_map [::]). Qed.
Lemma next_inj A v w : sq A -> v \in T -> w \in T -> nxt A v = nxt A w -> v = w.
Proof.
move=> qA hv hw e; have [_ [r hr er]] := nextP qA hv; have [_ [s hs es]] := nextP qA hw.
apply: (eqT hr hs hv hw); move: e; rewrite er es -!(mulmv_vscale _ (sqwf qA)) ?szT // => e.
case/andP: (qA) => /andP [/eqP sA wA] uA.
have := congr1 (cv d) e; rewrite !(cv_mulmv sA wA) ?size_vscale ?szT // => /(congr1 (mulmx (invmx (mx d d A)))).
rewrite !mulmxA mulVmx // !mul1mx => /colP h.
apply: (@eq_from_nth _ 0); rewrite !size_vscale ?szT // => i hi; by have := h (Ordinal hi); rewrite !mxE.
Qed.
Lemma pp_valid A : sq A -> valid N (pp A).
Proof.
move=> qA; apply: validP; first by rewrite size_map.
  by move=> i hi; rewrite pp_nth // index_mem; have [] := nextP qA (mem_nth [::] hi).
move=> i j hi hj; rewrite !pp_nth // => e; apply/eqP; rewrite -(nth_uniq [::] hi hj uT); apply/eqP.
have mi := mem_nth [::] hi; have mj := mem_nth [::] hj; apply: (next_inj qA mi mj).
have [ni _] := nextP qA mi; have [nj _] := nextP qA mj.
by rewrite -(nth_index [::] ni) e nth_index.
Qed.
Lemma pp_mul A B : sq A -> sq B -> pmul (pp A) (pp B) = pp (mull d B A).
Proof.
move=> qA qB; have qBA := sq_closed qB qA; apply: (@perm_ext N); rewrite ?valid_pmul ?pp_valid // => i hi.
have mi := mem_nth [::] hi; have [ni [r hr er]] := nextP qA mi; have [nn [s hs es]] := nextP qB ni.
have hx : (index (nxt A (nth [::] T i)) T < N)%N by rewrite index_mem.
rewrite (@nth_pmul N) ?pp_valid // [nth _ (pp A) i]pp_nth // [LHS]pp_nth // [RHS]pp_nth // nth_index //; congr index; apply/esym; apply: (nextE (r := s * r) qBA) => //; first exact: rootM.
rewrite es er mulmvM ?szT // (mulmv_vscale _ (sqwf qB)) ?vscaleA //.
by case/andP: (qA) => /andP [/eqP sA _] _; rewrite size_mulmv.
Qed.

(* matrices with the same permutation differ by a root of unity *)
Lemma scalar_eig (C : 'M[F]_d) : (forall u : 'cV_d, u != 0 -> exists2 c, c \in roots & C *m u = c *: u) ->
  exists2 c, c \in roots & C = c%:M.
Proof.
move=> h; pose z := Ordinal d0; pose e (i : 'I_d) : 'cV[F]_d := delta_mx i 0.
have e_nz i : e i != 0.
  by apply/eqP => /matrixP /(_ i 0); rewrite !mxE !eqxx => /eqP; rewrite oner_eq0.
have [c0 h0 E0] := h _ (e_nz z).
have key i : C *m e i = c0 *: e i.
  case: (eqVneq i z) => [-> // | iz]; have [c1 h1 E1] := h _ (e_nz i).
  have nz : e z + e i != 0.
    apply/eqP => /matrixP /(_ i 0); rewrite !mxE !eqxx (negbTE iz) add0r => /eqP; by rewrite oner_eq0.
  have [c2 h2 E2] := h _ nz; move: E2; rewrite mulmxDr E0 E1 => /matrixP E2.
  have := E2 i 0; have := E2 z 0; rewrite !mxE !eqxx (negbTE iz) eq_sym (negbTE iz) /= !(mulr0, mulr1, addr0, add0r) => <- ->.
  by [].
exists c0 => //; apply/matrixP => i j; have /matrixP /(_ i 0) := key j.
have -> : (C *m e j) i 0 = C i j.
  rewrite mxE (bigD1 j) //= big1 => [|k /negbTE kj]; first by rewrite mxE !eqxx mulr1 addr0.
  by rewrite mxE kj mulr0.
by rewrite !mxE => ->; rewrite andbT eq_sym mulr_natr; case: (eqVneq i j).
Qed.
Lemma list_cv (u : 'cV[F]_d) : exists2 v, size v = d & cv d v = u.
Proof.
exists (mkseq (fun i => if insub i is Some j then u j 0 else 0) d); first by rewrite size_mkseq.
by apply/colP => i; rewrite mxE nth_mkseq // insubT //= => h; congr (u _ 0); apply: val_inj.
Qed.
Lemma pp_eq (A B : mat F) : sq A -> sq B -> pp A = pp B <-> exists2 c, c \in roots & A = mscale c B.
Proof.
move=> qA qB; have wA := sqwf qA; have wB := sqwf qB; split=> [e | [c hc e]].
  have h v : v \in T -> nxt A v = nxt B v.
    move=> hv; have [nA _] := nextP qA hv; have [nB _] := nextP qB hv.
    have := congr1 (fun p => nth 0%N p (index v T)) e; rewrite /= !pp_nth ?index_mem // (nth_index _ hv) => e'.
    by rewrite -(nth_index [::] nA) e' nth_index.
  case/andP: (qA) => /andP [/eqP sA _] uA; case/andP: (qB) => /andP [/eqP sB _] uB.
  have h2 (u : 'cV[F]_d) : u != 0 -> exists2 c, c \in roots & (invmx (mx d d B) *m mx d d A) *m u = c *: u.
    have [v sv <-] := list_cv u => nz.
    have nv : nzvec v.
      rewrite /nzvec sv eqxx /=; apply: contraNneq nz => ->; apply/eqP/colP => i.
      by rewrite !mxE nth_nseq; case: ifP.
    have [t ht htv] := rT nv; have := h _ htv; have [_ [r hr ->]] := nextP qA htv; have [_ [s hs ->]] := nextP qB htv.
    rewrite !(mulmv_vscale _ _ sv) // !vscaleA => /(congr1 (cv d)).
    have cvs x w : cv d (vscale x w) = x *: cv d w by apply/colP => i; rewrite !mxE nth_vscale.
    rewrite !cvs (cv_mulmv sA wA sv) (cv_mulmv sB wB sv) => /(congr1 (mulmx (invmx (mx d d B)))).
    rewrite -!scalemxAr !mulmxA mulVmx // mul1mx => E.
    have rt0 : r * t != 0 by rewrite mulf_neq0 ?root_nz.
    exists ((r * t)^-1 * (s * t)); first by rewrite !rootM ?rootV ?rootM.
    by rewrite -scalerA -E scalerA mulVf // scale1r.
  have [c hc hC] := scalar_eig h2; exists c => //.
  apply: (@mat_ext _ d d); rewrite ?size_mscale ?wf_mscale // => i j hi hj.
  have : mx d d A = c *: mx d d B.
    by rewrite -[LHS]mul1mx -(mulmxV uB) -mulmxA hC mul_mx_scalar.
  by move/matrixP => /(_ (Ordinal hi) (Ordinal hj)); rewrite !mxE /= ent_mscale.
apply/eq_in_map => v hv; congr index; have [nB [r hr er]] := nextP qB hv.
apply: (nextE (r := r * c^-1) qA hv nB); first by rewrite rootM ?rootV.
by rewrite er e (mulmv_scale _ wB (szT hv)) vscaleA mulfVK // root_nz.
Qed.
Lemma sq_one : sq (lmx (1%:M : 'M[F]_d)). Proof. exact: sq_lmx (unitmx1 _ _). Qed.
Lemma pp_one : pp (lmx (1%:M : 'M[F]_d)) = pid N.
Proof.
apply: (@perm_ext N); rewrite ?valid_pid ?pp_valid ?sq_one // => i hi; rewrite pp_nth // nth_pid //.
have hv := mem_nth [::] hi; have sv := szT hv.
have ev : mulmv (lmx (1%:M : 'M[F]_d)) (nth [::] T i) = nth [::] T i.
  have := cv_mulmv (size_lmx (1%:M : 'M[F]_d)) (wf_lmx 1%:M) sv; rewrite mx_lmx mul1mx => /colP h.
  apply: (@eq_from_nth _ 0); rewrite size_mulmv size_lmx // => j hj; by have := h (Ordinal hj); rewrite !mxE.
by rewrite (nextE (r := 1) sq_one hv hv) ?root1 ?index_uniq // ev vscale1.
Qed.
(* the lift multiplies every column by some root of unity *)
Lemma lift_pp (A B : mat F) : sq A -> psl_lift T d (pp A) = Some B ->
  [/\ size B = d, wf d B & forall j : 'I_d, exists2 r, r \in roots & col j (mx d d B) = r *: col j (mx d d A)].
Proof.
rewrite /psl_lift; case: ifP => // /allP hu qA [<-]; have /andP [/andP [/eqP sA wA] uA] := qA.
rewrite /sl_lift; set C := map _ _; have sC : size C = d by rewrite size_map size_iota.
split; rewrite ?size_trl //; first by rewrite -{1}sC wf_trl.
move=> j; have ue : unit_vec F d j \in T by apply: hu; rewrite mem_iota /=.
have [n1 [r hr er]] := nextP qA ue; exists r => //; apply/colP => i; rewrite !mxE ent_trl ?sC //.
rewrite /ent (nth_map 0%N) ?size_iota // nth_iota // add0n pp_nth ?index_mem // !nth_index //.
rewrite er nth_vscale (nth_map [::]) ?sA // (dotE (wf_nth wA (_ : (i < size A)%N))) ?sA ?size_mkseq //; congr (_ * _).
rewrite (bigD1 j) //= nth_mkseq // eqxx mulr1 big1 ?addr0 // => k nk; rewrite nth_mkseq //.
by case: eqP => [e | _]; [case/eqP: nk; apply: val_inj | rewrite mulr0].
Qed.
End Action.

(* the number of different values of a function whose fibres have all the same size *)
Lemma fibres (T : finType) (V : eqType) (S : {set T}) (f : T -> V) g :
  (forall a, a \in S -> #|[set x in S | f x == f a]| = g) -> #|S| = (size (undup [seq f x | x <- fintype.enum S]) * g)%N.
Proof.
move=> h; set s := [seq f x | x <- _]; have <- : size s = #|S| by rewrite size_map -cardE.
have := perm_size (perm_count_undup s); rewrite size_flatten /shape -map_comp => <-.
have e x : x \in undup s -> size (nseq (count_mem x s) x) = g.
  rewrite mem_undup => /mapP [a]; rewrite mem_enum => ha ->; rewrite size_nseq -(h a ha) count_map -size_filter.
  have u : uniq [seq y <- fintype.enum S | preim [eta f] (pred1 (f a)) y] by rewrite filter_uniq // enum_uniq.
  by rewrite -(card_uniqP u); apply: eq_card => y; rewrite mem_filter mem_enum !inE andbC.
elim: (undup s) e => [|x u IH] e //=; rewrite mulSn -IH ?e ?mem_head // => y hy; by apply: e; rewrite in_cons hy orbT.
Qed.

Section Group.
Variables (F : finFieldType) (pe : F) (d' : nat) (T : seq (vec F)).
Local Notation d := d'.+2.
Local Notation q := #|F|.
Local Notation gens := (sl_gens d q pe).
Local Notation roots := (psl_roots pe q d).
Hypotheses (p0 : pe != 0) (prim : forall x : F, x != 0 -> exists k, x = pe ^+ k).
Hypotheses (uT : uniq T) (nT : forall v, v \in T -> nzvec d v)
  (rT : forall v, nzvec d v -> exists2 r, r \in roots & vscale r v \in T)
  (iT : forall r v, r \in roots -> v \in T -> vscale r v \in T -> vscale r v = v).
Local Notation perms := [seq psl_perm roots T A | A <- gens].
Let d0 : (0 < d)%N := isT.
Let rootsE := mem_roots p0 prim d0.
Let ppm := pp_mul d0 rootsE uT nT rT iT.
Lemma word_psl w : all (fun i => i < 2)%N w -> word_perm (size T) perms w = psl_perm roots T (lmx (word_prod d gens w)).
Proof.
have gsq := gens_sq prim d'.
have uw v : all (fun i => i < 2)%N v -> word_prod d gens v \in unitmx.
  elim: v => [|a v IH] /=; first by rewrite unitmx1.
  case/andP => ha /IH hv; rewrite unitmx_mul hv andbT; apply: sq_unit; apply: (allP gsq); exact: mem_nth.
elim: w => [|a w IH] /=; first by rewrite (pp_one d0 rootsE uT nT rT iT).
case/andP => ha hw; have ga : nth [::] gens a \in gens by apply: mem_nth.
have qa := allP gsq _ ga; have qw := sq_lmx (uw _ hw).
have -> : nth [::] [:: psl_perm roots T (nth [::] gens 0); psl_perm roots T (nth [::] gens 1)] a = psl_perm roots T (nth [::] gens a).
  by case: a ha {ga qa} => [|[|a]].
rewrite IH // (ppm qw qa); congr (psl_perm _ T _).
by apply: (@sq_eq _ d); rewrite ?sq_closed ?sq_lmx ?unitmx_mul ?(sq_unit qa) ?uw // sq_mulE // !mx_lmx.
Qed.
Theorem psl_linear p : (exists w, all (fun i => i < 2)%N w /\ p = word_perm (size T) perms w) <->
  (exists A : 'M[F]_d, \det A = 1 /\ p = psl_perm roots T (lmx A)).
Proof.
split=> [[w [hw ->]] | [A [dA ->]]].
  exists (word_prod d gens w); split; last exact: word_psl.
  by case: w hw => [|a w] hw; [rewrite /= det1 | apply/(sl_generated prim); exists (a :: w)].
by have [w [_ hw ->]] := (sl_generated prim A).2 dA; exists w; rewrite word_psl.
Qed.
Lemma psl_eq (A B : 'M[F]_d) : \det A = 1 -> \det B = 1 ->
  psl_perm roots T (lmx A) = psl_perm roots T (lmx B) <-> exists2 c, c ^+ d = 1 & A = c *: B.
Proof.
move=> /unit_det /sq_lmx qA /unit_det /sq_lmx qB; rewrite (pp_eq d0 rootsE nT rT iT qA qB).
split=> [[c hc e] | [c hc ->]]; exists c; rewrite ?rootsE ?hc //.
- by apply/eqP; rewrite -rootsE.
- by rewrite -(mx_lmx A) e mx_mscale mx_lmx.
apply: (@mat_ext _ d d); rewrite ?size_mscale ?wf_mscale ?size_lmx ?wf_lmx // => i j hi hj.
by rewrite ent_mscale (ent_lmx _ (Ordinal hi) (Ordinal hj)) (ent_lmx _ (Ordinal hi) (Ordinal hj)) mxE.
Qed.
Lemma det_scale (c : F) (A : 'M[F]_d) : c ^+ d = 1 -> \det A = 1 -> \det (c *: A) = 1.
Proof. by rewrite detZ => -> ->; rewrite mulr1. Qed.
(* the size of a class of matrices *)
Lemma class_size (A : 'M[F]_d) : \det A = 1 ->
  #|[set c *: A | c in [set c : F | c ^+ d == 1]]| = gcdn d q.-1.
Proof.
move=> dA; have A0 : A != 0 by apply: contra_eq_neq dA => ->; rewrite det0 eq_sym oner_neq0.
rewrite card_imset => [|x y /eqP]; last first.
  by rewrite -subr_eq0 -scalerBl scaler_eq0 (negbTE A0) orbF subr_eq0 => /eqP.
have -> : #|[set c : F | c ^+ d == 1]| = #|roots| by apply: eq_card => c; rewrite inE rootsE.
by rewrite (card_uniqP (uniq_roots d p0 prim)) size_map size_iota.
Qed.
Theorem psl_order : exists G, [/\ uniq G, forall p, p \in G <-> exists w, all (fun i => i < 2)%N w /\ p = word_perm (size T) perms w
  & (size G * gcdn d q.-1)%N = #|[set A : 'M[F]_d | \det A == 1]|].
Proof.
pose S := [set A : 'M[F]_d | \det A == 1]; pose f (A : 'M[F]_d) := psl_perm roots T (lmx A).
exists (undup [seq f A | A <- fintype.enum S]); split; first exact: undup_uniq.
  move=> p; rewrite mem_undup psl_linear; split=> [/mapP [A] | [A [dA ->]]].
    by rewrite mem_enum inE => /eqP dA ->; exists A.
  by apply: map_f; rewrite mem_enum inE dA.
apply/esym/fibres => A; rewrite inE => /eqP dA; rewrite -(class_size dA); apply: eq_card => B; rewrite !inE.
apply/andP/imsetP => [[/eqP dB /eqP /(psl_eq dB dA) [c hc ->]] | [c]].
  by exists c; rewrite // inE hc.
rewrite inE => /eqP hc ->; split; first by rewrite det_scale.
by apply/eqP/psl_eq => //; [exact: det_scale | exists c].
Qed.
End Group.

(* ------------------------------------------------------------------------- iter_mats *)
Section IterMats.
Variables (F : finFieldType) (pe : F) (d' : nat) (el : seq F) (out : seq (vec F)).
Local Notation d := d'.+2.
Local Notation q := #|F|.
Hypotheses (p0 : pe != 0) (prim : forall x : F, x != 0 -> exists k, x = pe ^+ k) (uel : uniq el) (ael : forall x, x \in el).
Hypothesis ho : psl_iter (psl_roots_iter pe q d) (sl_iter el d) out.
Let rootsE := mem_roots_iter p0 prim (isT : (0 < d)%N).
Lemma flat_scale r (A : mat F) : flatten (mscale r A) = vscale r (flatten A).
Proof. by rewrite /vscale map_flatten. Qed.
Lemma cut_lmx (A : 'M[F]_d) : cut d d (flatten (lmx A)) = lmx A.
Proof. by have := cut_flatten (wf_lmx A); rewrite size_lmx. Qed.
Lemma lmx_scale c (A : 'M[F]_d) : lmx (c *: A) = mscale c (lmx A).
Proof.
apply: (@mat_ext _ d d); rewrite ?size_mscale ?wf_mscale ?size_lmx ?wf_lmx // => i j hi hj.
by rewrite ent_mscale (ent_lmx _ (Ordinal hi) (Ordinal hj)) (ent_lmx _ (Ordinal hi) (Ordinal hj)) mxE.
Qed.
Lemma flat_inj (A B : 'M[F]_d) : flatten (lmx A) = flatten (lmx B) -> A = B.
Proof. by move/(congr1 (cut d d)); rewrite !cut_lmx => e; rewrite -(mx_lmx A) e mx_lmx. Qed.
Theorem psl_iterP : [/\ uniq out, forall v, v \in out -> exists2 A : 'M[F]_d, \det A = 1 & v = flatten (lmx A),
  forall A : 'M[F]_d, \det A = 1 -> exists2 B : 'M[F]_d, flatten (lmx B) \in out & exists2 c, c ^+ d = 1 & B = c *: A
  & forall (A : 'M[F]_d) c, c ^+ d = 1 -> flatten (lmx A) \in out -> flatten (lmx (c *: A)) \in out -> c *: A = A].
Proof.
case: ho => os so po; move: so; rewrite /psl_mat_orbits.
have -> : [seq [seq flatten (mscale r A) | r <- psl_roots_iter pe q d] | A <- sl_iter el d] =
    [seq psl_orbit (psl_roots_iter pe q d) v | v <- [seq flatten A | A <- sl_iter el d]].
  by rewrite -map_comp; apply: eq_map => A; apply: eq_map => r /=; rewrite flat_scale.
have [_ mem] := sl_iterP d uel ael; set V := map _ (sl_iter el d) => so.
have VE v : v \in V <-> exists2 A : 'M[F]_d, \det A = 1 & v = flatten (lmx A).
  split=> [/mapP [A hA ->] | [A dA ->]].
    move: hA; rewrite mem => /and3P [/eqP sA wA /eqP dA]; exists (mx d d A) => //; by rewrite lmx_mx.
  by apply: map_f; rewrite mem size_lmx wf_lmx mx_lmx dA !eqxx.
have cl r v : r \in psl_roots_iter pe q d -> v \in V -> vscale r v \in V.
  rewrite rootsE => /eqP hr /VE [A dA ->]; apply/VE; exists (r *: A); first by rewrite detZ hr dA mulr1.
  by rewrite lmx_scale flat_scale.
have [h1 h2 h3 h4] := repsP (isT : (0 < d)%N) rootsE cl so po; split=> //.
- by move=> v /h2 /VE.
- move=> A dA; have : flatten (lmx A) \in V by apply/VE; exists A.
  case/h3 => r; rewrite rootsE => /eqP hr hm; exists (r *: A); last by exists r.
  by rewrite lmx_scale flat_scale.
move=> A c hc hA hcA; apply: flat_inj; rewrite lmx_scale flat_scale; apply: h4 => //; first by rewrite rootsE hc.
by move: hcA; rewrite lmx_scale flat_scale.
Qed.
Theorem psl_iter_size : (size out * gcdn d q.-1)%N = #|[set A : 'M[F]_d | \det A == 1]|.
Proof.
have [uo oA Ao inj] := psl_iterP.
pose rel (A B : 'M[F]_d) := [exists c : F, (c ^+ d == 1) && (B == c *: A)].
pose f (A : 'M[F]_d) : vec F := nth [::] out (find (fun v => rel A (mx d d (cut d d v))) out).
have relP A B : reflect (exists2 c, c ^+ d = 1 & B = c *: A) (rel A B).
  by apply: (iffP existsP) => [[c /andP [/eqP h /eqP ->]] | [c h ->]]; exists c => //; rewrite h !eqxx.
have fP A : \det A = 1 -> f A \in out /\ exists2 c, c ^+ d = 1 & f A = flatten (lmx (c *: A)).
  move=> dA; have [B hB [c hc eB]] := Ao A dA.
  have hh : has (fun v => rel A (mx d d (cut d d v))) out.
    by apply/hasP; exists (flatten (lmx B)) => //; rewrite cut_lmx mx_lmx; apply/relP; exists c.
  have m : f A \in out by apply: mem_nth; rewrite -has_find.
  split=> //; have := nth_find [::] hh; rewrite -/(f A) => /relP [c' hc' e]; exists c' => //; rewrite -e.
  by have [B' _ ->] := oA _ m; rewrite cut_lmx mx_lmx.
have fE A B : \det A = 1 -> \det B = 1 -> f B = f A <-> exists2 c, c ^+ d = 1 & B = c *: A.
  move=> dA dB; have [mA [a ha eA]] := fP A dA; have [mB [b hb eB]] := fP B dB.
  have nz c : c ^+ d = 1 -> c != 0 by move=> h; apply: contra_eq_neq h => ->; rewrite expr0n /= eq_sym oner_neq0.
  split=> [e | [c hc e]].
    move: e; rewrite eA eB => /flat_inj e; exists (b^-1 * a); first by rewrite exprMn exprVn ha hb invr1 mulr1.
    by rewrite -scalerA -e scalerA mulVf ?nz // scale1r.
  have e2 : f B = flatten (lmx ((b * c * a^-1) *: (a *: A))) by rewrite eB e !scalerA mulfVK ?nz.
  rewrite eA e2; congr (flatten (lmx _)); apply: inj.
  - by rewrite !exprMn exprVn ha hb hc invr1 !mulr1.
  - by rewrite -eA.
  by rewrite -e2.
pose S := [set A : 'M[F]_d | \det A == 1].
have -> : size out = size (undup [seq f A | A <- fintype.enum S]).
  apply: perm_size; apply: uniq_perm; rewrite ?undup_uniq // => v; rewrite mem_undup; apply/idP/mapP.
    move=> hv; have [A dA ev] := oA v hv; exists A; first by rewrite mem_enum inE dA.
    have [mA [a ha eA]] := fP A dA; rewrite eA ev; congr (flatten (lmx _)); apply/esym; apply: inj => //.
      by rewrite -ev.
    by rewrite -eA.
  by case=> A; rewrite mem_enum inE => /eqP /fP [h _] ->.
apply/esym/fibres => A; rewrite inE => /eqP dA; rewrite -(class_size p0 prim dA); apply: eq_card => B; rewrite !inE.
apply/andP/imsetP => [[/eqP dB /eqP /(fE _ _ dA dB) [c hc ->]] | [c]].
  by exists c; rewrite // inE hc.
rewrite inE => /eqP hc ->; have dc := det_scale hc dA; split; first by rewrite dc.
by apply/eqP/fE => //; exists c.
Qed.
End IterMats.

(* ---------------------------------------------------- the regular representation, d = 2 *)
Section Two.
Variables (F : finFieldType) (pe : F).
Hypotheses (p0 : pe != 0) (prim : forall x : F, x != 0 -> exists k, x = pe ^+ k).
Local Notation q := #|F|.
Hypothesis q2 : q != 2%N.
Local Notation gens := (sl_gens 2 q pe).
Local Notation kgens := (psl_gens 2 q pe).
Local Notation W w := (word_prod 2 gens w).
Local Notation K w := (word_prod 4 kgens w : 'M[F]_(2 * 2)).
Definition small w := all (fun i => i < 2)%N w.

Definition m2 (a b c e : F) : 'M[F]_2 := \matrix_(i, j) nth 0 (nth [::] [:: [:: a; b]; [:: c; e]] i) j.
Lemma m2M a b c e a' b' c' e' : m2 a b c e *m m2 a' b' c' e' = m2 (a * a' + b * c') (a * b' + b * e') (c * a' + e * c') (c * b' + e * e').
Proof.
apply/matrixP => i j; rewrite !mxE !big_ord_recl big_ord0 !mxE addr0.
by case: i j => [[|[|i]] hi] [[|[|j]] hj].
Qed.
Lemma m2_1 : m2 1 0 0 1 = 1%:M.
Proof. by apply/matrixP => i j; rewrite !mxE; case: i j => [[|[|i]] hi] [[|[|j]] hj]. Qed.
Lemma m2E a b c e a' b' c' e' : a = a' -> b = b' -> c = c' -> e = e' -> m2 a b c e = m2 a' b' c' e'.
Proof. by move=> -> -> -> ->. Qed.
(* conjugation by this matrix inverts the two generators *)
Definition flip : 'M[F]_2 := if (q <= 3)%N then m2 1 0 0 (- 1) else m2 0 1 1 0.
Lemma flip2 : flip *m flip = 1%:M.
Proof. by rewrite /flip -m2_1; case: ifP => _; rewrite m2M; apply: m2E; ring. Qed.
Lemma gen0 : mx 2 2 (nth [::] gens 0) = if (q <= 3)%N then m2 1 1 0 1 else m2 pe 0 0 pe^-1.
Proof.
apply/matrixP => i j; rewrite mxE /= ent_mkmat //; case: ifP => h; rewrite mxE;
  by case: i j => [[|[|i]] hi] [[|[|j]] hj] //=; rewrite ?(add0r, addr0).
Qed.
Lemma gen1 : mx 2 2 (nth [::] gens 1) = if (q <= 3)%N then m2 0 1 (- 1) 0 else m2 (- 1) 1 (- 1) 0.
Proof.
apply/matrixP => i j; rewrite mxE /= ent_mkmat // [(3 < _)%N]ltnNge; case: (q <= 3)%N; rewrite mxE;
  by case: i j => [[|[|i]] hi] [[|[|j]] hj] //=; rewrite ?oppr0.
Qed.
Lemma flip_gen a : (a < 2)%N -> flip *m mx 2 2 (nth [::] gens a) *m flip = invmx (mx 2 2 (nth [::] gens a)).
Proof.
move=> ha; have ga : nth [::] gens a \in gens by apply: mem_nth.
have ug : mx 2 2 (nth [::] gens a) \in unitmx by apply: sq_unit; apply: (allP (gens_sq prim 0)).
suff h : (flip *m mx 2 2 (nth [::] gens a) *m flip) *m mx 2 2 (nth [::] gens a) = 1%:M.
  by rewrite -[LHS]mulmx1 -(mulmxV ug) mulmxA h mul1mx.
case: a ha {ga ug} => [|[|a]] // _; rewrite ?gen0 ?gen1 /flip -m2_1; case: ifP => _; rewrite !m2M; apply: m2E.
all: first [by rewrite !(mul0r, mulr0, mul1r, mulr1, addr0, add0r) mulVf | by rewrite !(mul0r, mulr0, mul1r, mulr1, addr0, add0r) mulfV | ring].
Qed.
Lemma kgens_nth a : (a < 2)%N ->
  mx (2 * 2) (2 * 2) (nth [::] kgens a) = invmx (mx 2 2 (nth [::] gens a)) *t mx 2 2 (nth [::] gens a).
Proof.
move=> ha; have ga : nth [::] gens a \in gens by apply: mem_nth.
have /andP [/andP [/eqP sg wg] _] := allP (gens_sq prim 0) _ ga.
by rewrite /psl_gens (negbTE q2) (nth_map [::]) // (mx_kron (size_lmx _) sg (wf_lmx _) wg) mx_lmx.
Qed.
Lemma tens11 m n : (1%:M : 'M[F]_m) *t (1%:M : 'M[F]_n) = 1%:M.
Proof.
apply/matrixP => i j; case: (mxtens_indexP i) => i0 i1; case: (mxtens_indexP j) => j0 j1; rewrite tensmxE !mxE.
rewrite (can_eq (@mxtens_indexK _ _)) xpair_eqE; by case: eqP; case: eqP; rewrite ?(mulr0, mul0r, mulr1).
Qed.
Lemma word_k w : small w -> K w = (flip *m W w *m flip) *t W w.
Proof.
elim: w => [|a w IH] /=.
  move=> _; rewrite mulmx1 flip2; exact/esym/tens11.
case/andP => ha hw; rewrite -[LHS]/(@mulmx F (2 * 2) (2 * 2) (2 * 2) (mx (2 * 2) (2 * 2) (nth [::] kgens a)) (K w)).
rewrite (kgens_nth ha) (IH hw) -(flip_gen ha) tensmx_mul; congr (_ *t _).
rewrite !mulmxA; congr (_ *m _ *m _); by rewrite -[_ *m flip *m flip]mulmxA flip2 mulmx1.
Qed.
Lemma tens_inj (B D : 'M[F]_2) : B \in unitmx -> D \in unitmx ->
  (flip *m B *m flip) *t B = (flip *m D *m flip) *t D <-> exists2 c, c ^+ 2 = 1 & B = c *: D.
Proof.
move=> uB uD; pose fl (X : 'M[F]_2) := flip *m X *m flip; rewrite -/(fl B) -/(fl D).
have flZ c X : fl (c *: X) = c *: fl X by rewrite /fl -scalemxAr -scalemxAl.
have uf X : X \in unitmx -> fl X \in unitmx.
  have u : flip \in unitmx by have [] := mulmx1_unit flip2.
  by move=> uX; rewrite !unitmx_mul u uX.
have tZ (c e : F) (X Y : 'M[F]_2) : (c *: X) *t (e *: Y) = (c * e) *: (X *t Y).
  apply/matrixP => i j; case: (mxtens_indexP i) => i0 i1; case: (mxtens_indexP j) => j0 j1.
  by rewrite [RHS]mxE !tensmxE !mxE mulrACA.
split=> [e | [c hc ->]]; last by rewrite flZ tZ -expr2 hc scale1r.
have [i [j h]] : exists i j, fl B i j != 0.
  have := uf B uB; case: (pickP (fun p : 'I_2 * 'I_2 => fl B p.1 p.2 != 0)) => [[i j] h _ | h]; first by exists i, j.
  have -> : fl B = 0 by apply/matrixP => i j; have /negbFE /eqP -> := h (i, j); rewrite mxE.
  by rewrite unitmxE det0 unitr0.
pose a := (fl B i j)^-1 * fl D i j.
have E : B = a *: D.
  apply/matrixP => k l; have /matrixP /(_ (mxtens_index (i, k)) (mxtens_index (j, l))) := e.
  by rewrite !tensmxE => e'; rewrite [RHS]mxE /a -mulrA -e' mulKf.
exists a => //; move: e; rewrite E flZ tZ -expr2 -[RHS]scale1r => /eqP; rewrite -subr_eq0 -scalerBl scaler_eq0 => /orP [].
  by rewrite subr_eq0 => /eqP.
have := @tensmx_unit F 2 2 (fl D) D isT isT (uf D uD) uD; rewrite unitmxE => /[swap] /eqP ->; by rewrite det0 unitr0.
Qed.
Lemma W_unit w : small w -> W w \in unitmx.
Proof.
elim: w => [|a w IH] /=; first by rewrite unitmx1.
case/andP => ha /IH hw; rewrite unitmx_mul hw andbT; apply: sq_unit; apply: (allP (gens_sq prim 0)); exact: mem_nth.
Qed.
Theorem psl2_words w w' : small w -> small w' -> K w = K w' <-> exists2 c, c ^+ 2 = 1 & W w = c *: W w'.
Proof. by move=> hw hw'; rewrite !word_k //; apply: tens_inj; apply: W_unit. Qed.
Lemma kgens_sq : all (square 4) kgens.
Proof.
apply/(all_nthP [::]) => a; have -> : size kgens = 2%N by rewrite /psl_gens (negbTE q2).
move=> ha; rewrite /square [mx 4 4 _](kgens_nth ha).
have ga : nth [::] gens a \in gens by apply: mem_nth.
have qg := allP (gens_sq prim 0) _ ga; have /andP [/andP [/eqP sg wg] ug] := qg.
have -> := @tensmx_unit F 2 2 _ _ isT isT (_ : invmx (mx 2 2 (nth [::] gens a)) \in unitmx) ug; last by rewrite unitmx_inv.
rewrite andbT /psl_gens (negbTE q2) (nth_map [::]) // size_kron size_lmx sg eqxx /=.
by apply: (@wf_kron _ 2 2) => //; apply: wf_lmx.
Qed.
Lemma kgens_uniq : uniq kgens.
Proof.
have s2 : size kgens = 2%N by rewrite /psl_gens (negbTE q2).
suff : nth [::] kgens 0 != nth [::] kgens 1 by case: kgens s2 => [|x [|y [|z s]]] //= _; rewrite inE andbT.
apply/eqP => e; have : K [:: 0%N] = K [:: 1%N] by rewrite /= e.
case/psl2_words => // c hc; rewrite /= !mulmx1 -[mkmat _ _ _ as X in mx 2 2 X]/(nth [::] gens 0) => E.
have : (mx 2 2 (nth [::] gens 0)) (inord 1) 0 = (c *: mx 2 2 (nth [::] gens 1)) (inord 1) 0 by rewrite -E.
have c0 : c != 0 by apply: contra_eq_neq hc => ->; rewrite expr0n /= eq_sym oner_neq0.
rewrite gen0 gen1; case: ifP => _; rewrite !mxE inordK //= => /esym /eqP; rewrite mulrN1 oppr_eq0 (negbTE c0) //.
Qed.
Theorem psl2_regular : exists fuel gs table idx, gen_mats (mull 4) [::] fuel kgens = Some (gs, table, idx) /\
  (size table * gcdn 2 q.-1)%N = #|[set A : 'M[F]_2 | \det A == 1]|.
Proof.
have s2 : size kgens = 2%N by rewrite /psl_gens (negbTE q2).
have g0 : (0 < size kgens)%N by rewrite s2.
have [fuel [[[gs table] idx] e]] := gen_mats_finite g0 kgens_uniq kgens_sq; exists fuel, gs, table, idx; split=> //.
have [ut inj sq ex] := gen_mats_members g0 kgens_uniq kgens_sq e; set lift := gm_lift [::] table idx in inj sq ex.
pose S := [set A : 'M[F]_2 | \det A == 1]; pose f (A : 'M[F]_2) : 'M[F]_4 := (flip *m A *m flip) *t A.
have inj' : {in table &, injective (fun p => mx 4 4 (lift p))} by move=> p r hp hr /(sq_eq (sq _ hp) (sq _ hr)) /inj; apply.
have u2 : uniq [seq mx 4 4 (lift p) | p <- table] by rewrite map_inj_in_uniq.
have -> : size table = size (undup [seq f A | A <- fintype.enum S]).
  rewrite -(size_map (fun p => mx 4 4 (lift p))); apply: perm_size; apply: uniq_perm; rewrite ?undup_uniq // => M.
  rewrite mem_undup; apply/mapP/mapP => [[p hp eM] | [A]].
    have /ex [w [w0 hw ew]] : exists2 p, p \in table & mx 4 4 (lift p) = M by exists p.
    have hw' : small w by move: hw; rewrite s2.
    exists (W w); last by rewrite ew; apply: word_k.
    by rewrite mem_enum inE; apply/eqP/(sl_generated prim); exists w.
  rewrite mem_enum inE => /eqP /(sl_generated prim) [w [w0 hw ->]] ->.
  have /ex [p hp ep] : generated kgens (f (W w) : 'M[F]_4).
    by exists w; split=> //; [rewrite s2 | apply/esym; apply: word_k].
  by exists p.
apply/esym/fibres => A; rewrite inE => /eqP dA; rewrite -(class_size p0 prim dA); apply: eq_card => B; rewrite !inE.
apply/andP/imsetP => [[/eqP dB /eqP /(tens_inj (unit_det dB) (unit_det dA)) [c hc ->]] | [c]].
  by exists c; rewrite // inE hc.
rewrite inE => /eqP hc ->; have dc := det_scale hc dA; split; first by rewrite dc.
by apply/eqP/tens_inj; [exact: unit_det | exact: unit_det | exists c].
Qed.
End Two.
