(* Null spaces and row reduction of matrices over a group algebra: model of qldpc/abstract.py:848-1071. *)
From mathcomp Require Import all_ssreflect all_algebra zify.
From mathcomp Require Import mxtens.
From Verif Require Import LinAlg RowReduce Kron Classical ClassicalProofs ClassicalProofs2 Symplectic Quantum QuantumProofs.
From Verif Require Import PermGroup Abelian GroupRing RingArray.
Set Implicit Arguments.
Unset Strict Implicit.
Unset Printing Implicit Defensive.
Import GRing.Theory.
Local Open Scope ring_scope.

(* ============================================================================== model *)
Section Model.
Variable F : fieldType.
Notation rmem := (rmem F).
Notation rarr := (rarr F).
Variables (G : group) (nc : nat).           (* the group and the number of columns *)
Notation N := (size G).
Notation reg := (regular_lift F G).

(* abstract.py:865-885: to_field_array().reshape(len(self), -1), row by row, and from_field_array of rows of coefficients *)
Definition frow (r : seq rmem) : seq F := flatten [seq to_vector G x | x <- r].
Definition ring_row (v : seq F) : seq rmem := [seq from_vector G (take N (drop (j * N)%N v)) | j <- iota 0 nc].

(* abstract.py:987-990: the first column with an invertible entry, and its inverse *)
Fixpoint find_inv (col : nat) (r : seq rmem) : option (nat * rmem) :=
  if r is x :: r' then
    if rm_inverse G x is Some y then if rm_bool y then Some (col, y) else find_inv col.+1 r' else find_inv col.+1 r'
  else None.
(* abstract.py:984-1007: one round of the loop over the rows *)
Definition inv_step (M : rarr) (row : nat) : rarr :=
  if find_inv 0 (nth [::] M row) is Some (col, inv) then
    let new := [seq rm_mul inv x | x <- nth [::] M row] in
    mkseq (fun k => if k == row then new
                    else [seq rm_sub p.1 (rm_mul (rent M k col) p.2) | p <- zip (nth [::] M k) new]) (size M)
  else M.
(* abstract.py:967-1015: _reduce_rows_with_invertible_entries.  The second pass at the end of the function works on a copy
   (indexing with a list copies) and its result is dropped, so it has no effect.  Simplification: without columns the
   function raises UnboundLocalError *)
Definition inv_reduce (M : rarr) : rarr := foldl inv_step M (iota 0 (size M)).

(* abstract.py:1017-1033: _split_by_pivots, the rows with the only nonzero entry of some column, and the other nonzero rows *)
Definition pivot_col (M : rarr) (j : nat) : bool := count (fun r => rm_bool (nth [::] r j)) M == 1%N.
Definition is_pivot (M : rarr) (r : seq rmem) : bool := has (fun j => pivot_col M j && rm_bool (nth [::] r j)) (iota 0 nc).
Definition split_pivots (M : rarr) : rarr * rarr :=
  ([seq r <- M | is_pivot M r], [seq r <- M | ~~ is_pivot M r & has (@rm_bool F) r]).

(* abstract.py:1064-1069: is the vector v independent of the rows A, both of length D? *)
Definition independent (D : nat) (A : mat F) (v : vec F) : bool :=
  let sys := rcons A v in
  has (fun w => (last 0 w != 0) && ~~ vany (take (size A) w)) (row_reduce (size sys) (trl D sys)).
(* abstract.py:1059-1069: one round of the loop over the rows; keep are the flags of the rows *)
Definition trim (V : mat F) (R : rarr) (keep : seq bool) (row : nat) : seq bool :=
  let keep' := set_nth false keep row false in
  if independent (nc * N) (ra_lift N reg (ra_inv (mask keep' R))) (nth [::] V row) then keep else keep'.
(* abstract.py:1035-1071: _remove_linearly_dependent_rows *)
Definition remove_dependent (M : rarr) : rarr :=
  let V := canon (nc * N) [seq frow r | r <- M] in
  let R := [seq ring_row v | v <- V] in
  mask (foldl (trim V R) (nseq (size R) true) (rev (iota 0 (size R)))) R.

(* abstract.py:908-965: row_reduce() (with heuristics; exact row reduction is not implemented in /repo) *)
Definition ra_row_reduce (M : rarr) : rarr :=
  let: (P, Q) := split_pivots (inv_reduce M) in
  P ++ (if (size Q * nc)%N == 0%N then Q else remove_dependent Q).
(* abstract.py:888-906: null_space() *)
Definition ra_null_space (A : rarr) : rarr :=
  ra_row_reduce (ra_inv [seq ring_row v | v <- null_space (nc * N) (ra_lift N reg A)]).
End Model.

(* ============================================================================= proofs *)
Lemma independentP (F : fieldType) D (A : mat F) v : wf D A -> size v = D -> ~~ independent D A v -> (rv D v <= sp D A)%MS.
Proof.
move=> wA sv; apply: contraR; rewrite submxE => nz.
have [l nl] : exists l, (rv D v *m cokermx (sp D A)) 0 l != 0.
  apply/existsP; apply: contraR nz; rewrite negb_exists => /forallP h.
  by apply/eqP/rowP => l; rewrite [RHS]mxE; apply/eqP; have := h l; rewrite negbK.
rewrite /independent; set sys := rcons A v; set s := size sys; set W := trl D sys.
have ss : s = (size A).+1 by rewrite /s size_rcons.
have wW : wf s W := wf_trl D sys.
have sW : size W = D := size_trl D sys.
pose y := (col l (cokermx (sp D A)))^T; pose w := y *m mx D s W.
have wE (k : 'I_s) : w 0 k = if (k < size A)%N then 0 else (rv D v *m cokermx (sp D A)) 0 l.
  have e (u : vec F) : nth [::] sys k = u -> w 0 k = (rv D u *m cokermx (sp D A)) 0 l.
    move=> eu; rewrite /w /W mx_trl // !mxE; apply: eq_bigr => t _; rewrite !mxE /ent eu mulrC //.
  case: ltnP => hk; last first.
    apply: e; rewrite nth_rcons ltnNge hk /=; case: eqP => // h.
    have h2 : (k <= size A)%N by rewrite -ltnS -ss.
    by case: h; apply/eqP; rewrite eqn_leq h2.
  have -> : w 0 k = (rv D (nth [::] A k) *m cokermx (sp D A)) 0 l by apply: e; rewrite nth_rcons hk.
  have := mulmx_coker (sp D A) => /matrixP /(_ (Ordinal hk) l); rewrite [RHS]mxE => h; rewrite -[RHS]h.
  rewrite mxE [RHS]mxE; apply: eq_bigr => t _; by rewrite !mxE.
have lt : (size A < s)%N by rewrite ss.
have hs : (w <= sp s (canon s W))%MS.
  by rewrite (sp_canon wW); apply/submxP; rewrite /sp sW; exists y.
have [||i hi fi] := @rref_lead F s (canon s W) w (Ordinal lt) (canon_rref wW) hs.
- by rewrite wE /= ltnn.
- by move=> c hc; rewrite wE hc.
have rin : nth [::] (canon s W) i \in canon s W by apply: mem_nth.
apply/hasP; exists (nth [::] (canon s W) i); first by move: rin; rewrite mem_filter => /andP [].
set r := nth _ _ i in rin fi *; have sr : size r = s := wfP _ _ (wf_canon wW) r rin.
have /first_nzP [h1 h2 h3] : vany r by move: rin; rewrite mem_filter => /andP [].
rewrite fi /= in h2 h3.
have -> : last 0 r = nth 0 r (size A) by rewrite -nth_last sr ss.
rewrite h2; apply/hasPn => x /(nthP 0) [k]; rewrite size_take sr lt => hk <-.
by rewrite nth_take // h3 // eqxx.
Qed.

Section Proofs.
Variable F : fieldType.
Variables (G : group) (n nc : nat).
Hypothesis gG : grp_ok n G.
Notation rmem := (rmem F).
Notation rarr := (rarr F).
Notation N := (size G).
Notation reg := (regular_lift F G).
Notation ok := (@rm_ok F G).
Notation rmx x := (mx N N (rm_lift N reg x)).
Notation wfr := (rwf G nc).
Notation rrep := (regr F gG).
Implicit Types (M A B : rarr) (r : seq rmem) (x y : rmem).

Definition lspan M r : Prop := exists c : nat -> rmem, (forall i, ok (c i)) /\
  forall j, (j < nc)%N -> rmx (nth [::] r j) = \sum_(i < size M) rmx (c i) *m rmx (rent M i j).
Definition rsub A B : Prop := forall r, r \in A -> lspan B r.
Definition okr r : bool := (size r == nc) && all ok r.

Lemma rwf_okr M r : wfr M -> r \in M -> okr r.
Proof. by move=> /allP w /w. Qed.
Lemma okr_ok r j : okr r -> ok (nth [::] r j).
Proof.
move=> /andP [_ /allP h]; case: (ltnP j (size r)) => hj; first exact/h/mem_nth.
by rewrite nth_default.
Qed.
Lemma rmx0 : rmx [::] = 0 :> 'M[F]_N. Proof. exact: (lift_zero gG rrep). Qed.
Lemma rmx_sum m (f : nat -> rmem) : (forall i, ok (f i)) -> exists2 x, ok x & rmx x = \sum_(i < m) rmx (f i).
Proof.
move=> h; elim: m => [|m [x ox e]]; first by exists [::]; rewrite // big_ord0 rmx0.
by exists (rm_add x (f m)); rewrite ?ok_add // (lift_add gG rrep) // big_ord_recr /= e.
Qed.
Lemma rmx_one : rmx (rm_one F n) = 1%:M. Proof. exact: (lift_one gG rrep). Qed.

Lemma lspan_ext M r s : (forall j, (j < nc)%N -> rmx (nth [::] r j) = rmx (nth [::] s j)) -> lspan M r -> lspan M s.
Proof. by move=> e [c [oc h]]; exists c; split=> // j hj; rewrite -e // h. Qed.
Lemma lspan_nth M i : (i < size M)%N -> lspan M (nth [::] M i).
Proof.
move=> hi; exists (fun k => if k == i then rm_one F n else [::]); split=> [k | j hj].
  by case: ifP => // _; apply: ok_one.
rewrite (bigD1 (Ordinal hi)) //= eqxx rmx_one mul1mx big1 ?addr0 // => k nk.
by rewrite ifN ?rmx0 ?mul0mx.
Qed.
Lemma lspan_mem M r : r \in M -> lspan M r.
Proof. by move=> h; rewrite -(nth_index [::] h); apply: lspan_nth; rewrite index_mem. Qed.
Lemma lspan_lin M a b r s t : ok a -> ok b -> lspan M r -> lspan M s ->
  (forall j, (j < nc)%N -> rmx (nth [::] t j) = rmx a *m rmx (nth [::] r j) + rmx b *m rmx (nth [::] s j)) -> lspan M t.
Proof.
move=> oa ob [c [oc hc]] [d [od hd]] e.
exists (fun i => rm_add (rm_mul a (c i)) (rm_mul b (d i))); split=> [i | j hj]; first by rewrite ok_add ?(ok_mul gG).
rewrite e // hc // hd // !mulmx_sumr -big_split /=; apply: eq_bigr => i _.
by rewrite (lift_add gG rrep) ?(ok_mul gG) // !(lift_mul gG rrep) // mulmxDl !mulmxA.
Qed.
Lemma lspan_scale M a r t : ok a -> lspan M r ->
  (forall j, (j < nc)%N -> rmx (nth [::] t j) = rmx a *m rmx (nth [::] r j)) -> lspan M t.
Proof.
move=> oa h e; apply: (@lspan_lin M a [::] r r t) => // j hj; by rewrite rmx0 mul0mx addr0 e.
Qed.
Lemma lspan_trans A B r : rsub A B -> lspan A r -> lspan B r.
Proof.
move=> h [c [oc hc]].
have /fin_all_exists [d hd] (i : 'I_(size A)) : exists d : nat -> rmem, (forall k, ok (d k)) /\
    forall j, (j < nc)%N -> rmx (rent A i j) = \sum_(k < size B) rmx (d k) *m rmx (rent B k j).
  exact: h (mem_nth [::] (ltn_ord i)).
have /fin_all_exists2 [e oe he] (k : 'I_(size B)) : exists2 x, ok x & rmx x = \sum_(i < size A) rmx (c i) *m rmx (d i k).
  pose f i := if insub i is Some i' then rm_mul (c i) (d i' k) else [::].
  have of_ i : ok (f i) by rewrite /f; case: insubP => // i' _ _; rewrite (ok_mul gG) //; case: (hd i').
  have [x ox ex] := @rmx_sum (size A) f of_; exists x => //; rewrite ex; apply: eq_bigr => i _.
  by rewrite /f valK (lift_mul gG rrep) //; case: (hd i).
exists (fun k => if insub k is Some k' then e k' else [::]); split=> [k | j hj]; first by case: insubP.
rewrite hc //; under eq_bigr do rewrite (proj2 (hd _)) // mulmx_sumr.
rewrite exchange_big /=; apply: eq_bigr => k _; rewrite valK he mulmx_suml; apply: eq_bigr => i _.
by rewrite mulmxA.
Qed.
Lemma rsub_trans A B C : rsub A B -> rsub B C -> rsub A C.
Proof. by move=> h1 h2 r /h1; apply: lspan_trans. Qed.
Lemma rsub_mem A B : {subset A <= B} -> rsub A B.
Proof. by move=> h r /h; apply: lspan_mem. Qed.
Lemma rsub_cat A B C : rsub A C -> rsub B C -> rsub (A ++ B) C.
Proof. by move=> h1 h2 r; rewrite mem_cat => /orP [/h1 | /h2]. Qed.

(* ---- elimination with invertible entries *)
Lemma find_invP col r c y : find_inv G col r = Some (c, y) ->
  [/\ (col <= c)%N, (c - col < size r)%N & rm_inverse G (nth [::] r (c - col)) = Some y].
Proof.
elim: r col => //= x r IH col.
have rest : find_inv G col.+1 r = Some (c, y) ->
    [/\ (col <= c)%N, (c - col < (size r).+1)%N & rm_inverse G (nth [::] (x :: r) (c - col)) = Some y].
  move=> /IH [h1 h2 h3]; have -> : (c - col = (c - col.+1).+1)%N by move: h1; clear; lia.
  by split=> //; apply: ltnW.
case e: rm_inverse => [z|] //; case: ifP => // _ [<- <-].
by rewrite subnn.
Qed.

Lemma size_inv_step M row : size (inv_step G M row) = size M.
Proof. by rewrite /inv_step; case: find_inv => [[c y]|] //; rewrite size_mkseq. Qed.

Lemma inv_stepP M row : wfr M -> (row < size M)%N -> wfr (inv_step G M row) /\ rsub (inv_step G M row) M /\
  (head [::] G = pid n -> rsub M (inv_step G M row)).
Proof.
move=> w hrow; rewrite /inv_step; case e: find_inv => [[col inv]|]; last by split=> //; split=> [|_]; apply: rsub_mem.
have [_ hc hi] := find_invP e; rewrite subn0 in hc hi.
set new := map _ _; set M' := mkseq _ _.
have okR k : (k < size M)%N -> okr (nth [::] M k) by move=> hk; apply: (rwf_okr w); apply: mem_nth.
have sR k : (k < size M)%N -> size (nth [::] M k) = nc by move/okR => /andP [/eqP].
have oE k j : (k < size M)%N -> ok (rent M k j) by move=> hk; apply/okr_ok/okR.
have snew : size new = nc by rewrite size_map sR.
have oinv : ok inv := ok_inverse gG (okr_ok _ (okR _ hrow)) hi.
have hnew j : (j < nc)%N -> nth [::] new j = rm_mul inv (rent M row j) by move=> hj; rewrite (nth_map [::]) ?sR.
have onew j : (j < nc)%N -> ok (nth [::] new j) by move=> hj; rewrite hnew // (ok_mul gG) ?oE.
have hM' k j : (k < size M)%N -> (j < nc)%N -> rent M' k j = if k == row then nth [::] new j else
    rm_sub (rent M k j) (rm_mul (rent M k col) (nth [::] new j)).
  move=> hk hj; rewrite /rent nth_mkseq //; case: eqP => // _.
  by rewrite (nth_map ([::], [::])) ?nth_zip ?size_zip ?snew ?sR // minnn.
have sM' : size M' = size M by rewrite size_mkseq.
have wM' : wfr M'.
  apply/allP => r /(nthP [::]) [k]; rewrite sM' => hk <-.
  have sz : size (nth [::] M' k) = nc by rewrite nth_mkseq //; case: ifP => _; rewrite ?snew // size_map size_zip snew sR // minnn.
  rewrite sz eqxx /=; apply/(all_nthP [::]) => j; rewrite sz.
  move=> hj; rewrite -/(rent M' k j) hM' //; case: ifP => _; first exact: onew.
  by rewrite ok_sub ?(ok_mul gG) ?oE ?onew.
have new_span : lspan M new.
  apply: (@lspan_scale M inv (nth [::] M row)) => //; first exact: lspan_nth.
  by move=> j hj; rewrite hnew // (lift_mul gG rrep) ?oE.
split=> //; split=> [r /(nthP [::]) [k] | hd r /(nthP [::]) [k hk <-]].
  rewrite sM' => hk <-; case: (k =P row) => [ekr | nkr].
    apply: lspan_ext new_span => j hj; by rewrite -/(rent M' k j) hM' // ekr eqxx.
  apply: (@lspan_lin M (rm_one F n) (rm_neg (rent M k col)) (nth [::] M k) new) => //; rewrite ?ok_one ?ok_neg ?oE //.
    exact: lspan_nth.
  move=> j hj; rewrite -/(rent M' k j) hM' //; move/eqP: nkr => /negbTE ->.
  rewrite (lift_sub gG rrep) ?(ok_mul gG) ?oE ?onew // (lift_mul gG rrep) ?oE ?onew // rmx_one mul1mx.
  by rewrite (lift_neg gG rrep) ?oE // mulNmx.
have in_row : lspan M' (nth [::] M' row) by apply: lspan_nth; rewrite sM'.
case: (k =P row) => [-> | nkr].
  apply: (@lspan_scale M' (rent M row col) (nth [::] M' row)) => //; first exact: oE.
  move=> j hj; rewrite -/(rent M' row j) hM' // eqxx hnew // (lift_mul gG rrep) ?oE // mulmxA.
  by rewrite (inverse_mx gG hd (oE _ _ hrow) hi) mul1mx.
apply: (@lspan_lin M' (rm_one F n) (rent M k col) (nth [::] M' k) (nth [::] M' row)) => //; rewrite ?ok_one ?oE //.
  by apply: lspan_nth; rewrite sM'.
move=> j hj; rewrite -/(rent M' k j) -/(rent M' row j) !hM' // eqxx; move/eqP: nkr => /negbTE ->.
rewrite (lift_sub gG rrep) ?(ok_mul gG) ?oE ?onew // (lift_mul gG rrep) ?oE ?onew // rmx_one mul1mx.
by rewrite subrK.
Qed.

Lemma inv_reduceP M : wfr M -> wfr (inv_reduce G M) /\ rsub (inv_reduce G M) M /\ (head [::] G = pid n -> rsub M (inv_reduce G M)).
Proof.
move=> w; rewrite /inv_reduce; set s := iota 0 _.
have hs : all (fun k => (k < size M)%N) s by apply/allP => k; rewrite mem_iota.
have rM : rsub M M by apply: rsub_mem.
have gen M' : size M' = size M -> wfr M' -> rsub M' M -> (head [::] G = pid n -> rsub M M') ->
    wfr (foldl (inv_step G) M' s) /\ rsub (foldl (inv_step G) M' s) M /\ (head [::] G = pid n -> rsub M (foldl (inv_step G) M' s)).
  elim: s hs M' => [|k s IH] //= /andP [hk hs] M' sM' w' h1 h2.
  have [wn [n1 n2]] := @inv_stepP M' k w' (eq_ind_r (fun m => k < m)%N hk sM').
  apply: IH => //; [by rewrite size_inv_step | exact: rsub_trans n1 h1 | by move=> hd; apply: rsub_trans (h2 hd) (n2 hd)].
exact: gen.
Qed.

(* ---- splitting *)
Lemma zero_row M r : okr r -> ~~ has (@rm_bool F) r -> lspan M r.
Proof.
move=> orr hz; exists (fun _ => [::]); split=> // j hj; rewrite big1 => [|i _]; last by rewrite rmx0 mul0mx.
have oj := okr_ok j orr; rewrite -[RHS]rmx0; apply: (lift_ext gG rrep) => // g gg; rewrite coef_nil.
have /andP [/eqP sr _] := orr; have := hasPn hz _ (mem_nth [::] (_ : j < size r)%N); rewrite sr => /(_ hj).
by case: (rm_boolP oj) => // h _; apply/eqP; apply/negPn/negP => nz; apply: h; exists g.
Qed.
Lemma splitP M : wfr M -> forall P Q, split_pivots nc M = (P, Q) -> [/\ wfr P, wfr Q, rsub (P ++ Q) M & rsub M (P ++ Q)].
Proof.
move=> w P0 Q0 [<- <-]; set P := filter _ _; set Q := filter _ _.
have sP : {subset P <= M} by move=> r; rewrite mem_filter => /andP [].
have sQ : {subset Q <= M} by move=> r; rewrite mem_filter => /andP [].
split; [by apply/allP => r /sP /(allP w) | by apply/allP => r /sQ /(allP w) | |].
  by apply: rsub_cat; apply: rsub_mem.
move=> r rM; case hp: (is_pivot nc M r).
  by apply: lspan_mem; rewrite mem_cat mem_filter hp rM.
case hn: (has (@rm_bool F) r); first by apply: lspan_mem; rewrite mem_cat !mem_filter hp hn rM.
by apply: zero_row; [exact: rwf_okr rM | rewrite hn].
Qed.

(* ---- rows of coefficients *)
Notation g_ i := (nth [::] G i).
Lemma G0 : (0 < N)%N. Proof. by have := g_one gG; case: (G). Qed.
Lemma frowP r : okr r -> size (frow G r) = (nc * N)%N /\
  forall j i, (j < nc)%N -> (i < N)%N -> nth 0 (frow G r) (j * N + i) = coef (nth [::] r j) (g_ i).
Proof.
move=> /andP [/eqP <-]; elim: r => //= x r IH /andP [ox /IH [h1 h2]]; have [s1 e1] := to_vectorP gG ox.
split=> [|[|j] i hj hi]; first by rewrite /frow /= size_cat s1 -/(frow G r) h1 mulSn.
  by rewrite /frow /= nth_cat s1 mul0n add0n hi e1.
by rewrite /frow /= nth_cat s1 ifF ?mulSn -?addnA ?addKn ?h2 //; apply/negbTE; rewrite -leqNgt leq_addr.
Qed.
Lemma ring_rowP (v : seq F) : size v = (nc * N)%N -> okr (ring_row G nc v) /\
  forall j i, (j < nc)%N -> (i < N)%N -> coef (nth [::] (ring_row G nc v) j) (g_ i) = nth 0 v (j * N + i).
Proof.
move=> sv; split; first by rewrite /okr size_map size_iota eqxx; apply/allP => x /mapP [j _ ->]; apply: ok_from_vector.
move=> j i hj hi; rewrite (nth_map 0%N) ?size_iota // nth_iota // add0n (coef_from_vector gG) //.
  by rewrite nth_take // nth_drop.
have h : (N <= size (drop (j * N) v))%N by rewrite size_drop sv -mulnBl leq_pmull // subn_gt0.
by rewrite size_take; case: ltngtP h => //.
Qed.
Lemma frow_ring (v : seq F) : size v = (nc * N)%N -> frow G (ring_row G nc v) = v.
Proof.
move=> sv; have [o1 e1] := ring_rowP sv; have [s2 e2] := frowP o1; apply: (@eq_from_nth _ 0); rewrite s2 ?sv // => k hk.
rewrite (divn_eq k N) e2 ?e1 ?ltn_mod ?G0 ?ltn_divLR ?G0 //.
Qed.

(* a row whose coefficients are a combination of the coefficients of other members *)
Lemma coef_rmx m x (f : nat -> rmem) : ok x -> (forall k, (k < m)%N -> ok (f k)) ->
  (forall i, (i < N)%N -> coef x (g_ i) = \sum_(k < m) coef (f k) (g_ i)) -> rmx x = \sum_(k < m) rmx (f k).
Proof.
move=> ox of_ h; rewrite (mx_lift gG rrep ox).
under [RHS]eq_bigr do rewrite (mx_lift gG rrep (of_ _ (ltn_ord _))).
rewrite exchange_big /=; apply: eq_big_seq => g gg; rewrite -scaler_suml -(gindexK gg); congr (_ *: _).
by rewrite h // gindex_lt.
Qed.
Lemma rmx_const a : ok (rm_make [:: (pid n, a)]) /\ rmx (rm_make [:: (pid n, a)]) = a%:M.
Proof.
have h := g_one gG; split; first by rewrite ok_make //= h.
have [_ _ h1 _] := is_repE rrep; by rewrite (rmx_single gG) //= h1 scalemx1.
Qed.
Lemma rv_frow r (k : 'I_(nc * N)) : okr r -> rv (nc * N) (frow G r) 0 k = coef (nth [::] r (k %/ N)) (g_ (k %% N)).
Proof.
move=> orr; have [_ e] := frowP orr; rewrite mxE {1}(divn_eq k N) e ?ltn_mod ?G0 // ltn_divLR ?G0 //.
Qed.

Lemma field_span M r : wfr M -> okr r -> (rv (nc * N) (frow G r) <= sp (nc * N) [seq frow G s | s <- M])%MS ->
  exists a : nat -> F, forall j, (j < nc)%N -> rmx (nth [::] r j) = \sum_(i < size M) a i *: rmx (rent M i j).
Proof.
move=> w orr; have -> : sp (nc * N) [seq frow G s | s <- M] = mx (size [seq frow G s | s <- M]) (nc * N) [seq frow G s | s <- M] by [].
rewrite size_map => /submxP [D eD]; exists (fun i => if insub i is Some k then D 0 k else 0) => j hj.
have oM (i : 'I_(size M)) : okr (nth [::] M i) := rwf_okr w (mem_nth _ (ltn_ord i)).
have oj := okr_ok j orr.
rewrite (mx_lift gG rrep oj); under [RHS]eq_bigr do rewrite valK (mx_lift gG rrep (okr_ok j (oM _))) scaler_sumr.
rewrite exchange_big /=; apply: eq_big_seq => g gg; under [RHS]eq_bigr do rewrite scalerA.
rewrite -scaler_suml; congr (_ *: _).
have hi := gindex_lt gg; have hk : (j * N + gindex G g < nc * N)%N by move: hj hi; clear; nia.
have := congr1 (fun A : 'rV_(nc * N) => A 0 (Ordinal hk)) eD; rewrite rv_frow //= mxE.
have dv : ((j * N + gindex G g) %/ N = j)%N by rewrite divnMDl ?G0 // divn_small // addn0.
have md : ((j * N + gindex G g) %% N = gindex G g)%N by rewrite modnMDl modn_small.
rewrite dv md gindexK // => ->; apply: eq_bigr => i _; congr (_ * _); rewrite mxE /ent (nth_map [::]) //.
by have [_ e] := frowP (oM i); rewrite e // gindexK.
Qed.
Lemma lspan_field M r : wfr M -> okr r -> (rv (nc * N) (frow G r) <= sp (nc * N) [seq frow G s | s <- M])%MS -> lspan M r.
Proof.
move=> w orr /(field_span w orr) [a h]; exists (fun i => rm_make [:: (pid n, a i)]); split=> [i | j hj].
  by case: (rmx_const (a i)).
by rewrite h //; apply: eq_bigr => i _; rewrite (rmx_const (a i)).2 mul_scalar_mx.
Qed.

(* ---- dropping dependent rows *)
Lemma sp_mapE D (A : mat F) m : size A = m -> (mx m D A :=: sp D A)%MS.
Proof. by move=> <-. Qed.
Lemma rsub_ring V M : wf (nc * N) V -> wfr M -> (sp (nc * N) V :=: sp (nc * N) [seq frow G r | r <- M])%MS ->
  [/\ wfr [seq ring_row G nc v | v <- V], rsub [seq ring_row G nc v | v <- V] M & rsub M [seq ring_row G nc v | v <- V]].
Proof.
move=> wV wM e; have sV v : v \in V -> size v = (nc * N)%N by move/wfP: wV => h /h.
have wR : wfr [seq ring_row G nc v | v <- V] by apply/allP => r /mapP [v /sV sv ->]; case: (ring_rowP sv).
split=> // r.
  move=> /mapP [v vV ->]; have [o1 _] := ring_rowP (sV _ vV).
  apply: lspan_field => //; rewrite frow_ring ?sV // -e; exact: mem_sp.
move=> rM; apply: lspan_field => //; first exact: rwf_okr rM.
rewrite -map_comp; have -> : [seq (frow G \o ring_row G nc) v | v <- V] = V.
  by rewrite -[RHS]map_id; apply/eq_in_map => v /sV sv /=; rewrite frow_ring.
by rewrite e; apply: mem_sp; apply: map_f.
Qed.

Lemma wf_mask (b : seq bool) M : wfr M -> wfr (mask b M).
Proof. by move=> /allP w; apply/allP => r /mem_mask /w. Qed.
Lemma removeP M : wfr M -> wfr (remove_dependent G nc M) /\ rsub (remove_dependent G nc M) M.
Proof.
move=> w; rewrite /remove_dependent; set V := canon _ _; set R := map _ V.
have wF : wf (nc * N) [seq frow G r | r <- M].
  by apply/wfP => v /mapP [r rM ->]; case: (frowP (rwf_okr w rM)).
have [wR h1 _] := rsub_ring (wf_canon wF) w (sp_canon wF).
split; first exact: wf_mask.
by move=> r /mem_mask /h1.
Qed.

Theorem row_reduceP M : wfr M -> wfr (ra_row_reduce G nc M) /\ rsub (ra_row_reduce G nc M) M.
Proof.
move=> w; have [w1 [h1 _]] := inv_reduceP w; rewrite /ra_row_reduce; case e: split_pivots => [P Q]; have [wP wQ h2 _] := splitP w1 e.
have h3 : rsub (P ++ Q) M := rsub_trans h2 h1.
have sQ : rsub Q M by move=> r rQ; apply: h3; rewrite mem_cat rQ orbT.
have sP : rsub P M by move=> r rQ; apply: h3; rewrite mem_cat rQ.
case: ifP => _; first by rewrite /rwf all_cat -!/(rwf G nc _) wP wQ.
have [w4 h4] := removeP wQ; split; first by rewrite /rwf all_cat -!/(rwf G nc _) wP w4.
by apply: rsub_cat => //; apply: rsub_trans h4 sQ.
Qed.

(* ---- null space *)
Definition annih A r : Prop := forall i, (i < size A)%N -> \sum_(j < nc) rmx (rent A i j) *m (rmx (nth [::] r j))^T = 0.
Lemma annih_lspan A M r : (forall s, s \in M -> annih A s) -> lspan M r -> annih A r.
Proof.
move=> h [c [oc hc]] i hi; under eq_bigr do rewrite hc // raddf_sum mulmx_sumr.
rewrite exchange_big big1 //= => k _; under eq_bigr do rewrite trmx_mul mulmxA.
by rewrite -mulmx_suml (h _ (mem_nth [::] (ltn_ord k))) ?mul0mx.
Qed.

(* a vector of coefficients times a member *)
Lemma mul_coef x y (i : 'I_N) : ok x -> ok y -> coef (rm_mul y x) (g_ i) = \sum_(k < N) rmx y i k * coef x (g_ k).
Proof.
move=> ox oy; have o1 := g_one gG; have oi := mem_nth [::] (ltn_ord i); have hI := gindex_lt o1.
rewrite (reg_coef gG) ?(ok_mul gG) // (gindex_nth gG) //.
have /matrixP /(_ i (Ordinal hI)) := lift_mul gG rrep oy ox; rewrite [LHS]mxE => ->; rewrite mxE; apply: eq_bigr => k _.
by congr (_ * _); rewrite [LHS]mxE /= (reg_coef gG ox) ?(gindex_nth gG) ?mem_nth.
Qed.

(* null vectors of the lifted matrix are the coefficients of null vectors *)
Lemma null_vec A r : wfr A -> okr r ->
  (rv (nc * N) (frow G r) *m (sp (nc * N) (ra_lift N reg A))^T = 0) <->
  (forall i, (i < size A)%N -> \sum_(j < nc) rmx (rent A i j) *m rmx (nth [::] r j) = 0).
Proof.
move=> w orr; have [sL wL eL] := ra_liftP gG rrep w erefl.
have oA i j : (i < size A)%N -> ok (rent A i j) by move=> hi; apply/okr_ok/(rwf_okr w)/mem_nth.
have e (i : 'I_(size A)) (k : 'I_N) : (rv (nc * N) (frow G r) *m (mx (size A * N) (nc * N) (ra_lift N reg A))^T) 0 (mxtens_index (i, k)) =
    \sum_(j < nc) coef (rm_mul (rent A i j) (nth [::] r j)) (g_ k).
  rewrite mxE big_tens; apply: eq_bigr => j _; rewrite (mul_coef k (okr_ok j orr) (oA _ _ (ltn_ord i))); apply: eq_bigr => l _.
  rewrite [in RHS]mulrC; congr (_ * _); last by rewrite [LHS]mxE; apply: eL.
  by rewrite rv_frow //= divnMDl ?G0 // divn_small // addn0 modnMDl modn_small.
have -> : (rv (nc * N) (frow G r) *m (sp (nc * N) (ra_lift N reg A))^T = 0) <->
    (rv (nc * N) (frow G r) *m (mx (size A * N) (nc * N) (ra_lift N reg A))^T = 0) by rewrite /sp sL.
split=> h.
  move=> i hi; have h0 : rmx [::] = \sum_(j < nc) rmx (rm_mul (rent A i j) (nth [::] r j)).
    apply: (@coef_rmx nc [::] (fun j => rm_mul (rent A i j) (nth [::] r j))) => // [j _ | t ht]; first by rewrite (ok_mul gG) ?oA ?okr_ok.
    by rewrite -(e (Ordinal hi) (Ordinal ht)) h mxE.
  by rewrite rmx0 in h0; rewrite [RHS]h0; apply: eq_bigr => j _; rewrite (lift_mul gG rrep) ?oA ?okr_ok.
apply/rowP => t; case: (mxtens_indexP t) => i k; rewrite e mxE.
have h1 := h _ (ltn_ord i).
have oj (j : 'I_nc) : ok (rm_mul (rent A i j) (nth [::] r j)) by rewrite (ok_mul gG) ?oA ?okr_ok.
under eq_bigr do rewrite (reg_coef gG (oj _)) ?mem_nth // (gindex_nth gG) //.
have hI := gindex_lt (g_one gG).
transitivity ((\sum_(j < nc) rmx (rm_mul (rent A i j) (nth [::] r j))) k (Ordinal hI)).
  by rewrite summxE; apply: eq_bigr => j _; rewrite mxE.
have -> : \sum_(j < nc) rmx (rm_mul (rent A i j) (nth [::] r j)) = 0; last by rewrite mxE.
by rewrite -[RHS]h1; apply: eq_bigr => j _; rewrite (lift_mul gG rrep) ?oA ?okr_ok.
Qed.

Definition null_rows A : rarr := ra_inv [seq ring_row G nc v | v <- null_space (nc * N) (ra_lift N reg A)].
Lemma inv_row r : okr r -> okr (map (@rm_T F) r) /\ forall j, (j < nc)%N -> rmx (nth [::] (map (@rm_T F) r) j) = (rmx (nth [::] r j))^T.
Proof.
move=> orr; have /andP [/eqP sr ho] := orr; split.
  by rewrite /okr size_map sr eqxx; apply/allP => x /mapP [y /(allP ho) oy ->]; apply: (ok_T gG).
by move=> j hj; rewrite (nth_map [::]) ?sr // (lift_T gG rrep) // okr_ok.
Qed.
Lemma null_rowsP A : wfr A -> wfr (null_rows A) /\ forall r, r \in null_rows A -> annih A r.
Proof.
move=> w; have [sL wL _] := ra_liftP gG rrep w erefl; have wN := wf_null_space wL.
have sV v : v \in null_space (nc * N) (ra_lift N reg A) -> size v = (nc * N)%N by move/wfP: wN => h /h.
split; first by apply: (rwf_inv gG); apply/allP => r /mapP [v /sV sv ->]; case: (ring_rowP sv).
move=> r /mapP [s /mapP [v vV ->] ->] i hi; have [o1 _] := ring_rowP (sV _ vV); have [_ h] := inv_row o1.
under eq_bigr do rewrite h // trmxK.
apply: (proj1 (null_vec w o1)) => //; apply/(null_spaceP _ wL); rewrite frow_ring ?sV //; exact: mem_sp.
Qed.
Theorem null_space_annih A r : wfr A -> r \in ra_null_space G nc A -> annih A r.
Proof.
move=> w rin; have [w1 h1] := null_rowsP w; have [_ h2] := row_reduceP w1; exact: annih_lspan h1 (h2 _ rin).
Qed.
Theorem null_space_wf A : wfr A -> wfr (ra_null_space G nc A).
Proof. by move=> w; have [w1 _] := null_rowsP w; case: (row_reduceP w1). Qed.
Lemma null_rows_complete A r : wfr A -> okr r -> annih A r -> lspan (null_rows A) r.
Proof.
move=> w orr h; have [sL wL _] := ra_liftP gG rrep w erefl; have wN := wf_null_space wL.
have sV v : v \in null_space (nc * N) (ra_lift N reg A) -> size v = (nc * N)%N by move/wfP: wN => hw /hw.
have [ot ht] := inv_row orr; set R := [seq ring_row G nc v | v <- null_space (nc * N) (ra_lift N reg A)].
have wR : wfr R by apply/allP => s /mapP [v /sV sv ->]; case: (ring_rowP sv).
have : (rv (nc * N) (frow G (map (@rm_T F) r)) <= sp (nc * N) [seq frow G s | s <- R])%MS.
  rewrite -map_comp; have -> : [seq (frow G \o ring_row G nc) v | v <- null_space (nc * N) (ra_lift N reg A)] = null_space (nc * N) (ra_lift N reg A).
    by rewrite -[RHS]map_id; apply/eq_in_map => v /sV sv /=; rewrite frow_ring.
  apply/(null_spaceP _ wL)/(null_vec w ot) => i hi; rewrite -[RHS](h i hi); apply: eq_bigr => j _; by rewrite ht.
move=> /(field_span wR ot) [a ha]; exists (fun i => rm_make [:: (pid n, a i)]); split=> [i | j hj].
  by case: (rmx_const (a i)).
rewrite -[LHS]trmxK -ht // ha // raddf_sum /null_rows -/R size_inv; apply: eq_bigr => i _.
have [_ hi] := inv_row (rwf_okr wR (mem_nth [::] (ltn_ord i))).
rewrite (rmx_const (a i)).2 mul_scalar_mx -[LHS]/((_ *: _)^T) linearZ -[LHS]/(_ *: _^T) -hi //; congr (_ *: _).
by rewrite /rent [nth [::] (ra_inv R) i](nth_map [::]).
Qed.

Hypothesis ab : {in G &, forall p q, pmul p q = pmul q p}.

Lemma lspan_lift M r : wfr M -> okr r ->
  (rv (nc * N) (frow G r) <= sp (nc * N) (ra_lift N reg (ra_inv M)))%MS -> lspan M r.
Proof.
move=> w orr; have wI := rwf_inv gG w; have [sL wL eL] := ra_liftP gG rrep wI (size_inv M).
rewrite -(sp_mapE _ sL) => /submxP [D eD].
have oM (i : 'I_(size M)) j : ok (rent M i j) := okr_ok j (rwf_okr w (mem_nth _ (ltn_ord i))).
pose x i := from_vector G [seq (if insub i is Some k then D 0 (mxtens_index (k : 'I_(size M), t)) else 0) | t <- enum 'I_N].
have ox i : ok (x i) := ok_from_vector _ _.
have cx (i : 'I_(size M)) (k : 'I_N) : coef (x i) (g_ k) = D 0 (mxtens_index (i, k)).
  rewrite /x (coef_from_vector gG) //; last by rewrite size_map size_enum_ord.
  by rewrite valK (nth_map k (0 : F) (fun t => D 0 (mxtens_index (i, t)))) ?size_enum_ord // nth_ord_enum.
exists x; split=> // j hj; have oj := okr_ok j orr.
pose f i := if insub i is Some k then rm_mul (rent M (val (k : 'I_(size M))) j) (x i) else [::].
have -> : rmx (nth [::] r j) = \sum_(i < size M) rmx (f i).
  apply: coef_rmx => // [k _ | t ht]; first by rewrite /f; case: insubP => // k' _ _; apply: (ok_mul gG) => //; apply: oM.
  have := congr1 (fun A : 'rV_(nc * N) => A 0 (mxtens_index (Ordinal hj, Ordinal ht))) eD.
  rewrite rv_frow //= divnMDl ?G0 // divn_small // addn0 modnMDl modn_small // => ->.
  rewrite mxE big_tens; apply: eq_bigr => i _; rewrite /f valK (mul_coef (Ordinal ht) (ox i) (oM i j)); apply: eq_bigr => k _.
  rewrite eL cx mulrC; congr (_ * _); rewrite /bl (rent_inv w) ?ltn_ord // (lift_T gG rrep) //.
  by rewrite [LHS]mxE [RHS]mxE mxE.
apply: eq_bigr => i _; rewrite /f valK (lift_mul gG rrep (oM i j) (ox i)).
exact: (lift_comm gG rrep ab (oM i j) (ox i)).
Qed.
Lemma keep_inv V R b s : wf (nc * N) V -> R = [seq ring_row G nc v | v <- V] -> wfr R -> size b = size R ->
  all (fun k => (k < size R)%N) s -> rsub R (mask b R) -> rsub R (mask (foldl (trim G nc V R) b s) R).
Proof.
move=> wV eR wR; elim: s b => //= k s IH b sb /andP [hk hs] h.
have sb' : size (set_nth false b k false) = size R by rewrite size_set_nth sb; apply/maxn_idPr.
apply: IH => //; rewrite /trim; case: ifP => hi //.
set b' := set_nth _ _ _ _ in sb' hi *.
have wM : wfr (mask b' R) by apply: wf_mask.
have [sL wL _] := ra_liftP gG rrep (rwf_inv gG wM) (size_inv _).
have kV : (k < size V)%N by move: hk; rewrite eR size_map.
have sv : size (nth [::] V k) = (nc * N)%N := wf_nth wV kV.
have hrow : lspan (mask b' R) (nth [::] R k).
  apply: lspan_lift => //; first exact: rwf_okr wR (mem_nth _ hk).
  have -> : nth [::] R k = ring_row G nc (nth [::] V k) by rewrite eR (nth_map [::]).
  by rewrite frow_ring //; apply: independentP => //; rewrite hi.
apply: rsub_trans h _ => r; rewrite -{1}[R](mkseq_nth [::]) /mkseq -map_mask => /mapP [i].
have ui : uniq (iota 0 (size R)) := iota_uniq _ _.
rewrite in_mask // mem_iota add0n /= => /andP [hi1 hi2] ->.
case: (i =P k) => [-> | nik] //; apply: lspan_mem; rewrite -{2}[R](mkseq_nth [::]) /mkseq -map_mask.
apply/mapP; exists i => //; rewrite in_mask // mem_iota add0n /= hi1 /= nth_set_nth /=.
have ei : index i (iota 0 (size R)) = i by rewrite -{1}[i](@nth_iota 0%N 0%N (size R) i hi1) index_uniq ?size_iota.
by rewrite ei in hi2 *; move/eqP: nik => /negbTE ->.
Qed.

Lemma remove_full M : wfr M -> rsub M (remove_dependent G nc M).
Proof.
move=> w; rewrite /remove_dependent; set V := canon _ _; set R := map _ V.
have wF : wf (nc * N) [seq frow G r | r <- M].
  by apply/wfP => v /mapP [r rM ->]; case: (frowP (rwf_okr w rM)).
have [wR h1 h2] := rsub_ring (wf_canon wF) w (sp_canon wF).
apply: rsub_trans h2 _; apply: keep_inv => //; rewrite ?size_nseq //; first exact: wf_canon.
  by apply/allP => k; rewrite mem_rev mem_iota.
by rewrite mask_true //; apply: rsub_mem.
Qed.

Theorem row_reduce_full M : head [::] G = pid n -> wfr M -> rsub M (ra_row_reduce G nc M).
Proof.
move=> hd w; have [w1 [_ /(_ hd) h1]] := inv_reduceP w; rewrite /ra_row_reduce; case e: split_pivots => [P Q]; have [wP wQ _ h2] := splitP w1 e.
apply: rsub_trans h1 _; apply: rsub_trans h2 _; case: ifP => _; first exact: rsub_mem.
apply: rsub_cat; first by apply: rsub_mem => r; rewrite mem_cat => ->.
apply: rsub_trans (remove_full wQ) _; by apply: rsub_mem => r; rewrite mem_cat orbC => ->.
Qed.
Theorem null_space_complete A r : head [::] G = pid n -> wfr A -> okr r -> annih A r -> lspan (ra_null_space G nc A) r.
Proof.
move=> hd w orr h; have [w1 _] := null_rowsP w; apply: lspan_trans (null_rows_complete w orr h).
exact: row_reduce_full.
Qed.
End Proofs.
