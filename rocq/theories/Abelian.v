(* Direct products of cyclic groups: model of qldpc/abstract.py:1120-1175 (AbelianGroup, CyclicGroup). *)
From mathcomp Require Import all_ssreflect all_algebra zify.
From mathcomp Require Import mxtens.
From Verif Require Import LinAlg RowReduce Kron Classical ClassicalProofs ClassicalProofs2 PermGroup.
Set Implicit Arguments.
Unset Strict Implicit.
Unset Printing Implicit Defensive.
Import GRing.Theory.
Local Open Scope ring_scope.

(* ============================================================================== model *)
(* the member prod_j g_j^(e_j) of the group AbelianGroup( *orders).  External: SymPy's AbelianGroup has as generator g_j the
   cycle x -> x + 1 of the j-th block of orders_j points; the product of the powers of these disjoint cycles is given in
   closed form.  (At most one order may be 1: SymPy drops repeated generators.) *)
Definition ab_perm (orders e : seq nat) : perm :=
  flatten (mkseq (fun j => mkseq (fun y => flatten_index orders j ((y + nth 0%N e j) %% nth 0%N orders j)%N)
                                 (nth 0%N orders j)) (size orders)).
(* itertools.product( *[range(order) for order in orders]) *)
Fixpoint exps (orders : seq nat) : seq (seq nat) :=
  if orders is o :: os then [seq x :: e | x <- iota 0 o, e <- exps os] else [:: [::]].
(* abstract.py:1151-1155: generate_func *)
Definition ab_group (orders : seq nat) : group := [seq ab_perm orders e | e <- exps orders].

Section Lift.
Variable R : comRingType.
(* abstract.py:1134-1149: the lift of AbelianGroup.  Without orders functools.reduce raises an exception ([::] here) *)
Definition ab_shifts (orders : seq nat) (p : perm) : seq nat :=
  mkseq (fun j => nth 0%N p (sumn (take j orders)) - sumn (take j orders))%N (size orders).
Definition ab_mats (orders : seq nat) (p : perm) : seq (mat R) :=
  [seq roll_eye R os.1 os.2 | os <- zip orders (ab_shifts orders p)].
Definition ab_lift (orders : seq nat) (p : perm) : mat R :=
  if ab_mats orders p is m :: ms then foldl (@kron R) m ms else [::].
(* the same with direct_sum=True: scipy.linalg.block_diag( *mats); all blocks are square *)
Definition ab_lift_sum (orders : seq nat) (p : perm) : mat R :=
  foldl (fun A B => bdiag (size A) (size B) A B) [::] (ab_mats orders p).
(* abstract.py:1168-1175: the lift of CyclicGroup *)
Definition cyclic_lift (order : nat) (p : perm) : mat R := roll_eye R order (nth 0%N p 0).
End Lift.

(* ============================================================================= proofs *)
Section Members.
Variable orders : seq nat.
Hypothesis pos : all (ltn 0%N) orders.
Notation N := (sumn orders).
Notation ri := (reshape_index orders).
Notation ro := (reshape_offset orders).
Notation fi := (flatten_index orders).
Notation o_ j := (nth 0%N orders j).
Implicit Types e f : seq nat.

Lemma o_pos j : (j < size orders -> 0 < o_ j)%N.
Proof. by move=> h; move/allP: pos; apply; apply: mem_nth. Qed.

Lemma shape_ab e : shape (mkseq (fun j => mkseq (fun y => fi j ((y + nth 0%N e j) %% o_ j)%N) (o_ j)) (size orders)) = orders.
Proof.
apply: (@eq_from_nth _ 0%N); rewrite /shape size_map size_mkseq // => i hi.
by rewrite (nth_map [::]) ?size_mkseq // nth_mkseq // size_mkseq.
Qed.

Lemma size_ab e : size (ab_perm orders e) = N.
Proof. by rewrite size_flatten shape_ab. Qed.

Lemma nth_ab e i : (i < N)%N -> nth 0%N (ab_perm orders e) i = fi (ri i) ((ro i + nth 0%N e (ri i)) %% o_ (ri i))%N.
Proof.
move=> hi; rewrite nth_flatten shape_ab nth_mkseq ?reshape_indexP //.
by rewrite nth_mkseq ?reshape_offsetP.
Qed.

Lemma ab_lt e i : (i < N)%N -> ((ro i + nth 0%N e (ri i)) %% o_ (ri i) < o_ (ri i))%N.
Proof. by move=> hi; rewrite ltn_pmod // o_pos // reshape_indexP. Qed.

Lemma ab_nth_lt e i : (i < N)%N -> (nth 0%N (ab_perm orders e) i < N)%N.
Proof. by move=> hi; rewrite nth_ab // flatten_indexP // ab_lt. Qed.

Lemma ri_ab e i : (i < N)%N -> ri (nth 0%N (ab_perm orders e) i) = ri i.
Proof. by move=> hi; rewrite nth_ab // flatten_indexKl // ab_lt. Qed.
Lemma ro_ab e i : (i < N)%N -> ro (nth 0%N (ab_perm orders e) i) = ((ro i + nth 0%N e (ri i)) %% o_ (ri i))%N.
Proof. by move=> hi; rewrite nth_ab // flatten_indexKr // ab_lt. Qed.

Lemma fiK i : fi (ri i) (ro i) = i. Proof. exact: reshape_indexK. Qed.

Lemma valid_ab e : valid N (ab_perm orders e).
Proof.
apply: validP; [exact: size_ab | exact: ab_nth_lt | move=> i j hi hj eq].
have e1 : ri i = ri j by rewrite -(ri_ab e hi) -(ri_ab e hj) eq.
have := congr1 ro eq; rewrite !ro_ab // e1 => /eqP; rewrite eqn_modDr !modn_small.
- by move/eqP => e2; rewrite -(fiK i) -(fiK j) e1 e2.
- exact: reshape_offsetP.
by rewrite -e1 reshape_offsetP.
Qed.

(* products and inverses of members *)
Lemma pmul_ab e f : pmul (ab_perm orders e) (ab_perm orders f) =
  ab_perm orders (mkseq (fun j => (nth 0%N e j + nth 0%N f j)%N) (size orders)).
Proof.
apply: (@perm_ext N); rewrite ?valid_pmul ?valid_ab // => i hi.
rewrite (nth_pmul _ (valid_ab e)) // nth_ab ?ab_nth_lt // ri_ab // ro_ab // nth_ab //.
by rewrite nth_mkseq ?reshape_indexP // modnDml addnA.
Qed.

Lemma ab_mod e f : (forall j, (j < size orders)%N -> nth 0%N e j = nth 0%N f j %[mod o_ j]) -> ab_perm orders e = ab_perm orders f.
Proof.
move=> h; apply: (@perm_ext N); rewrite ?valid_ab // => i hi; rewrite !nth_ab //; congr fi.
by apply/eqP; rewrite eqn_modDl; apply/eqP/h/reshape_indexP.
Qed.

Lemma ab_id : ab_perm orders (nseq (size orders) 0%N) = pid N.
Proof.
apply: (@perm_ext N); rewrite ?valid_ab ?valid_pid // => i hi.
rewrite nth_ab // nth_pid // nth_nseq reshape_indexP // addn0 modn_small ?reshape_offsetP //; exact: fiK.
Qed.

Lemma ab_inv e : pinv (ab_perm orders e) = ab_perm orders (mkseq (fun j => o_ j - nth 0%N e j %% o_ j)%N (size orders)).
Proof.
set f := mkseq _ _; have va := valid_ab e; have vf := valid_ab f.
have -> : ab_perm orders f = pmul (pinv (ab_perm orders e)) (pid N).
  rewrite -[LHS](pmulKp va vf); congr pmul; rewrite pmul_ab -ab_id; apply: ab_mod => j hj.
  rewrite !nth_mkseq // nth_nseq hj -modnDml subnKC ?modnn ?mod0n // ltnW // ltn_pmod // o_pos //.
by rewrite pmulp1 // valid_pinv.
Qed.

Lemma ab_inj e f : (forall j, (j < size orders)%N -> (nth 0%N e j < o_ j)%N) ->
  (forall j, (j < size orders)%N -> (nth 0%N f j < o_ j)%N) -> ab_perm orders e = ab_perm orders f ->
  forall j, (j < size orders)%N -> nth 0%N e j = nth 0%N f j.
Proof.
move=> he hf eq j hj; have lt := @flatten_indexP orders j 0%N (o_pos hj).
have := congr1 (fun p => ro (nth 0%N p (fi j 0%N))) eq; rewrite !ro_ab // flatten_indexKl ?o_pos // flatten_indexKr ?o_pos //.
by rewrite !add0n !modn_small ?he ?hf.
Qed.

Lemma ab_shiftsE e : ab_shifts orders (ab_perm orders e) = mkseq (fun j => nth 0%N e j %% o_ j)%N (size orders).
Proof.
apply: (@eq_from_nth _ 0%N); rewrite !size_mkseq // => j hj; rewrite !nth_mkseq //.
have lt := @flatten_indexP orders j 0%N (o_pos hj); rewrite /flatten_index addn0 in lt.
rewrite nth_ab //; have e0 : sumn (take j orders) = fi j 0%N by rewrite /flatten_index addn0.
have -> : ri (sumn (take j orders)) = j by rewrite e0 flatten_indexKl ?o_pos.
have -> : ro (sumn (take j orders)) = 0%N by rewrite e0 flatten_indexKr ?o_pos.
by rewrite add0n /flatten_index addKn.
Qed.

End Members.

Lemma expsP orders e : reflect (size e = size orders /\ forall j, (j < size orders)%N -> (nth 0%N e j < nth 0%N orders j)%N)
  (e \in exps orders).
Proof.
elim: orders e => [|o os IH] e /=; first by rewrite inE; apply: (iffP eqP) => [-> // | [/size0nil -> ]].
apply: (iffP allpairsPdep) => [[x [f [hx /IH [sf hf] ->]]] | []].
  rewrite mem_iota in hx; split=> [/=|[|j]] /=; first by rewrite sf.
    by [].
  by rewrite ltnS; apply: hf.
case: e => // x f [sf] h; exists x, f; split=> //; first by rewrite mem_iota (h 0%N).
by apply/IH; split=> // j hj; apply: (h j.+1).
Qed.

Lemma exps_uniq orders : uniq (exps orders).
Proof. by elim: orders => //= o os IH; apply: allpairs_uniq; rewrite ?iota_uniq // => -[x e] [y f] _ _ [-> ->]. Qed.

Lemma size_exps orders : size (exps orders) = foldr muln 1%N orders.
Proof. by elim: orders => //= o os IH; rewrite size_allpairs size_iota IH. Qed.

Section Group.
Variable orders : seq nat.
Hypothesis pos : all (ltn 0%N) orders.
Notation o_ j := (nth 0%N orders j).

Definition norm_exp (e : seq nat) : seq nat := mkseq (fun j => nth 0%N e j %% o_ j)%N (size orders).
Lemma norm_in e : norm_exp e \in exps orders.
Proof. by apply/expsP; rewrite size_mkseq; split=> // j hj; rewrite nth_mkseq // ltn_pmod // o_pos. Qed.
Lemma ab_norm e : ab_perm orders e = ab_perm orders (norm_exp e).
Proof. by apply: ab_mod => // j hj; rewrite nth_mkseq // modn_mod. Qed.
Lemma ab_in e : ab_perm orders e \in ab_group orders.
Proof. by rewrite ab_norm; apply: map_f; apply: norm_in. Qed.

Lemma ab_group_ok : grp_ok (sumn orders) (ab_group orders).
Proof.
split.
- rewrite map_inj_in_uniq ?exps_uniq // => e f /expsP [se he] /expsP [sf hf] eq.
  by apply: (@eq_from_nth _ 0%N); rewrite ?se ?sf // => j hj; apply: (ab_inj pos he hf eq).
- by apply/allP => p /mapP [e _ ->]; apply: valid_ab.
- by rewrite -(ab_id pos); apply: ab_in.
- by move=> p q /mapP [e _ ->] /mapP [f _ ->]; rewrite pmul_ab //; apply: ab_in.
by move=> p /mapP [e _ ->]; rewrite ab_inv //; apply: ab_in.
Qed.

Lemma ab_comm p q : p \in ab_group orders -> q \in ab_group orders -> pmul p q = pmul q p.
Proof.
move=> /mapP [e _ ->] /mapP [f _ ->]; rewrite !pmul_ab //; congr ab_perm.
by apply: eq_mkseq => j; rewrite addnC.
Qed.
End Group.

Section LiftProofs.
Variable R : comRingType.
Notation M o s := (roll_eye R o s).

Lemma size_roll o s : size (M o s) = o.
Proof. by rewrite size_rotr size_mkseq. Qed.
Lemma wf_roll o s : wf o (M o s).
Proof. by apply/wfP => r; rewrite mem_rotr => /mapP [i _ ->]; rewrite size_mkseq. Qed.

Lemma ent_roll o s i j : (i < o)%N -> (j < o)%N -> ent (M o s) i j = (i == (j + s) %% o)%N%:R.
Proof.
move=> hi hj; have o0 : (0 < o)%N by apply: leq_ltn_trans hi.
have hs : (s %% o < o)%N by rewrite ltn_pmod.
have e1 : ent (M o s) i j = ent (idl R o) (if (i < s %% o)%N then o - s %% o + i else i - s %% o)%N j.
  rewrite /ent /roll_eye /rotr size_mkseq; congr (nth 0 _ j).
  rewrite /rot nth_cat size_drop size_mkseq subKn ?(ltnW hs) //; case: ifP => h.
    by rewrite nth_drop.
  rewrite nth_take //; move: hi hs h; clear; lia.
rewrite e1 ent_mkmat //; last by case: ifP; move: hi hs; clear; lia.
congr ((nat_of_bool _)%:R); rewrite -modnDmr; set t := (s %% o)%N in hs *.
case: (ltnP (j + t) o) => h.
  rewrite modn_small //; case: ifP => h2; apply/eqP/eqP; move: hi hj hs h h2; clear; lia.
have -> : ((j + t) %% o = j + t - o)%N.
  by rewrite -{1}(subnK h) modnDr modn_small //; move: hj hs; clear; lia.
case: ifP => h2; apply/eqP/eqP; move: hi hj hs h h2; clear; lia.
Qed.

Lemma mx_roll_mul o s t : (0 < o)%N -> mx o o (M o (s + t)) = mx o o (M o s) *m mx o o (M o t).
Proof.
move=> o0; apply/matrixP => i j; rewrite !mxE ent_roll //.
have hk : ((j + t) %% o < o)%N by rewrite ltn_pmod.
under eq_bigr do rewrite !mxE !ent_roll //.
rewrite (eq_bigr (fun k : 'I_o => (val k == (j + t) %% o)%N%:R * (val i == (k + s) %% o)%N%:R)); last by move=> k _; rewrite mulrC.
by rewrite (sum_delta1 (fun k : 'I_o => (val i == (k + s) %% o)%N%:R) hk) /= modnDml -addnA [(t + s)%N]addnC.
Qed.

Lemma mx_roll0 o : mx o o (M o 0%N) = 1%:M.
Proof. by apply/matrixP => i j; rewrite !mxE ent_roll // addn0 modn_small. Qed.

Lemma mx_roll_mod o s : M o (s %% o) = M o s.
Proof. by rewrite /roll_eye modn_mod. Qed.

Lemma mx_roll_tr o s t : (0 < o)%N -> ((s + t) %% o = 0)%N -> mx o o (M o t) = (mx o o (M o s))^T.
Proof.
move=> o0 h; apply/matrixP => i j; rewrite !mxE !ent_roll //; congr ((nat_of_bool _)%:R).
apply/eqP/eqP => e.
  by rewrite e modnDml -addnA [(t + s)%N]addnC -modnDmr h addn0 modn_small.
by rewrite e modnDml -addnA -modnDmr h addn0 modn_small.
Qed.

(* Kronecker products and direct sums of such matrices *)
Definition krons (A : mat R) (os ss : seq nat) : mat R := foldl (@kron R) A [seq M p.1 p.2 | p <- zip os ss].

Lemma krons_size d A os ss : size A = d -> wf d A -> size ss = size os ->
  size (krons A os ss) = foldl muln d os /\ wf (foldl muln d os) (krons A os ss).
Proof.
rewrite /krons; elim: os ss d A => [|o os IH] [|s ss] d A //= sA wA [e].
by apply: IH => //; [rewrite size_kron sA size_roll | apply: wf_kron => //; apply: wf_roll].
Qed.

Lemma krons_mul d A B C os es fs : all (ltn 0%N) os -> size A = d -> wf d A -> size B = d -> wf d B -> size C = d -> wf d C ->
  size es = size os -> size fs = size os -> mx d d C = mx d d A *m mx d d B ->
  let D := foldl muln d os in
  mx D D (krons C os [seq p.1 + p.2 | p <- zip es fs]%N) = mx D D (krons A os es) *m mx D D (krons B os fs).
Proof.
rewrite /krons; elim: os es fs d A B C => [|o os IH] [|e es] [|f fs] d A B C //= /andP [o0 pos] sA wA sB wB sC wC [se] [sf] h.
have k1 (X : mat R) t : size X = d -> size (kron X (M o t)) = (d * o)%N by rewrite size_kron size_roll => ->.
have k2 (X : mat R) t : wf d X -> wf (d * o) (kron X (M o t)) by move=> wX; apply: wf_kron => //; apply: wf_roll.
apply: IH; rewrite ?k1 ?k2 //.
by rewrite !(mx_kron (m := d) (p := o)) ?size_roll ?wf_roll // h mx_roll_mul // tensmx_mul.
Qed.

Lemma krons_id d A os : size A = d -> wf d A -> mx d d A = 1%:M ->
  mx (foldl muln d os) (foldl muln d os) (krons A os (nseq (size os) 0%N)) = 1%:M.
Proof.
rewrite /krons; elim: os d A => [|o os IH] d A //= sA wA h; apply: IH.
- by rewrite size_kron size_roll sA.
- by apply: wf_kron => //; apply: wf_roll.
by rewrite (mx_kron (m := d) (p := o)) ?size_roll ?wf_roll // h mx_roll0 tensmx11.
Qed.

Lemma krons_tr d A B os es fs : all (ltn 0%N) os -> size A = d -> wf d A -> size B = d -> wf d B ->
  size es = size os -> size fs = size os -> mx d d B = (mx d d A)^T ->
  (forall j, (j < size os)%N -> ((nth 0%N es j + nth 0%N fs j) %% nth 0%N os j = 0)%N) ->
  let D := foldl muln d os in
  mx D D (krons B os fs) = (mx D D (krons A os es))^T.
Proof.
rewrite /krons; elim: os es fs d A B => [|o os IH] [|e es] [|f fs] d A B //= /andP [o0 pos] sA wA sB wB [se] [sf] h hm.
have k1 (X : mat R) t : size X = d -> size (kron X (M o t)) = (d * o)%N by rewrite size_kron size_roll => ->.
have k2 (X : mat R) t : wf d X -> wf (d * o) (kron X (M o t)) by move=> wX; apply: wf_kron => //; apply: wf_roll.
apply: IH; rewrite ?k1 ?k2 //; last by move=> j hj; apply: (hm j.+1).
rewrite !(mx_kron (m := d) (p := o)) ?size_roll ?wf_roll // h.
by rewrite (@mx_roll_tr o e f) ?(hm 0%N) // trmx_tens.
Qed.

Definition dsums (A : mat R) (os ss : seq nat) : mat R :=
  foldl (fun A B => bdiag (size A) (size B) A B) A [seq M p.1 p.2 | p <- zip os ss].

Lemma dsums_size d A os ss : size A = d -> wf d A -> size ss = size os ->
  size (dsums A os ss) = foldl addn d os /\ wf (foldl addn d os) (dsums A os ss).
Proof.
rewrite /dsums; elim: os ss d A => [|o os IH] [|s ss] d A //= sA wA [e].
by apply: IH => //; [rewrite size_bdiag sA size_roll | rewrite sA size_roll; apply: wf_bdiag => //; apply: wf_roll].
Qed.

Lemma dsums_mul d A B C os es fs : all (ltn 0%N) os -> size A = d -> wf d A -> size B = d -> wf d B -> size C = d -> wf d C ->
  size es = size os -> size fs = size os -> mx d d C = mx d d A *m mx d d B ->
  let D := foldl addn d os in
  mx D D (dsums C os [seq p.1 + p.2 | p <- zip es fs]%N) = mx D D (dsums A os es) *m mx D D (dsums B os fs).
Proof.
rewrite /dsums; elim: os es fs d A B C => [|o os IH] [|e es] [|f fs] d A B C //= /andP [o0 pos] sA wA sB wB sC wC [se] [sf] h.
have k1 (X : mat R) t : size X = d -> size (bdiag (size X) (size (M o t)) X (M o t)) = (d + o)%N by rewrite size_bdiag size_roll => ->.
have k2 (X : mat R) t : size X = d -> wf d X -> wf (d + o) (bdiag (size X) (size (M o t)) X (M o t)).
  by move=> sX wX; rewrite sX size_roll; apply: wf_bdiag => //; apply: wf_roll.
apply: IH; rewrite ?k1 ?k2 //.
rewrite sA sB sC !size_roll !(mx_bdiag (m1 := d) (m2 := o)) ?size_roll ?wf_roll // h mx_roll_mul // mulmx_block.
by rewrite !(mul0mx, mulmx0, addr0, add0r).
Qed.

Lemma dsums_id d A os : size A = d -> wf d A -> mx d d A = 1%:M ->
  mx (foldl addn d os) (foldl addn d os) (dsums A os (nseq (size os) 0%N)) = 1%:M.
Proof.
rewrite /dsums; elim: os d A => [|o os IH] d A //= sA wA h; apply: IH.
- by rewrite size_bdiag size_roll sA.
- by rewrite sA size_roll; apply: wf_bdiag => //; apply: wf_roll.
by rewrite sA size_roll (mx_bdiag (m1 := d) (m2 := o)) ?size_roll ?wf_roll // h mx_roll0 -scalar_mx_block.
Qed.

Lemma dsums_tr d A B os es fs : all (ltn 0%N) os -> size A = d -> wf d A -> size B = d -> wf d B ->
  size es = size os -> size fs = size os -> mx d d B = (mx d d A)^T ->
  (forall j, (j < size os)%N -> ((nth 0%N es j + nth 0%N fs j) %% nth 0%N os j = 0)%N) ->
  let D := foldl addn d os in
  mx D D (dsums B os fs) = (mx D D (dsums A os es))^T.
Proof.
rewrite /dsums; elim: os es fs d A B => [|o os IH] [|e es] [|f fs] d A B //= /andP [o0 pos] sA wA sB wB [se] [sf] h hm.
have k1 (X : mat R) t : size X = d -> size (bdiag (size X) (size (M o t)) X (M o t)) = (d + o)%N by rewrite size_bdiag size_roll => ->.
have k2 (X : mat R) t : size X = d -> wf d X -> wf (d + o) (bdiag (size X) (size (M o t)) X (M o t)).
  by move=> sX wX; rewrite sX size_roll; apply: wf_bdiag => //; apply: wf_roll.
apply: IH; rewrite ?k1 ?k2 //; last by move=> j hj; apply: (hm j.+1).
rewrite sA sB !size_roll !(mx_bdiag (m1 := d) (m2 := o)) ?size_roll ?wf_roll // h.
by rewrite (@mx_roll_tr o e f) ?(hm 0%N) // tr_block_mx !trmx0.
Qed.

(* from equations between matrices to entries *)
Lemma is_repM n d (G : group) (L : perm -> mat R) :
  (forall p, p \in G -> size (L p) = d /\ wf d (L p)) ->
  (forall p q, p \in G -> q \in G -> mx d d (L (pmul p q)) = mx d d (L p) *m mx d d (L q)) ->
  mx d d (L (pid n)) = 1%:M -> (forall p, p \in G -> mx d d (L (pinv p)) = (mx d d (L p))^T) -> is_rep n d G L.
Proof.
move=> h1 h2 h3 h4; split=> // [p q pG qG i j hi hj | i j hi hj | p pG i j hi hj].
- have /matrixP /(_ (Ordinal hi) (Ordinal hj)) := h2 p q pG qG; rewrite !mxE => ->.
  by apply: eq_bigr => k _; rewrite !mxE.
- by have /matrixP /(_ (Ordinal hi) (Ordinal hj)) := h3; rewrite !mxE.
by have /matrixP /(_ (Ordinal hi) (Ordinal hj)) := h4 p pG; rewrite !mxE.
Qed.

Lemma is_repE n d (G : group) (L : perm -> mat R) : is_rep n d G L ->
  [/\ forall p, p \in G -> size (L p) = d /\ wf d (L p),
      forall p q, p \in G -> q \in G -> mx d d (L (pmul p q)) = mx d d (L p) *m mx d d (L q),
      mx d d (L (pid n)) = 1%:M & forall p, p \in G -> mx d d (L (pinv p)) = (mx d d (L p))^T].
Proof.
case=> h1 h2 h3 h4; split=> // [p q pG qG | | p pG]; apply/matrixP => i j; rewrite !mxE ?h2 ?h3 ?h4 //.
by apply: eq_bigr => k _; rewrite !mxE.
Qed.

Section AbLift.
Variable orders : seq nat.
Hypothesis pos : all (ltn 0%N) orders.
Notation o_ j := (nth 0%N orders j).

Lemma ab_matsE e : size e = size orders ->
  ab_mats R orders (ab_perm orders e) = [seq M p.1 p.2 | p <- zip orders e].
Proof.
move=> se; rewrite /ab_mats ab_shiftsE //; apply: (@eq_from_nth _ [::]).
  by rewrite !size_map !size_zip size_mkseq se.
rewrite size_map size_zip size_mkseq minnn => i hi.
rewrite !(nth_map (0, 0)%N) ?size_zip ?size_mkseq ?se ?minnn // !nth_zip ?size_mkseq ?se //= nth_mkseq //.
exact: mx_roll_mod.
Qed.

Definition addexp (e f : seq nat) : seq nat := [seq p.1 + p.2 | p <- zip e f]%N.
Lemma pmul_addexp e f : size e = size orders -> size f = size orders ->
  pmul (ab_perm orders e) (ab_perm orders f) = ab_perm orders (addexp e f).
Proof.
move=> se sf; rewrite pmul_ab //; congr ab_perm; apply: (@eq_from_nth _ 0%N); rewrite ?size_mkseq ?size_map ?size_zip ?se ?sf ?minnn //.
by move=> j hj; rewrite nth_mkseq // (nth_map (0, 0)%N) ?size_zip ?se ?sf ?minnn // nth_zip ?se.
Qed.
Lemma size_addexp e f : size e = size orders -> size f = size orders -> size (addexp e f) = size orders.
Proof. by move=> se sf; rewrite size_map size_zip se sf minnn. Qed.

(* C57 for AbelianGroup *)
Lemma ab_lift_rep : (0 < size orders)%N ->
  is_rep (sumn orders) (foldl muln 1%N orders) (ab_group orders) (ab_lift R orders).
Proof.
case: orders pos ab_matsE pmul_addexp size_addexp => // o os all0 mE pE sE _.
have /andP [o0 p0] : (0 < o)%N && all (ltn 0%N) os by [].
have L e : size e = size (o :: os) -> ab_lift R (o :: os) (ab_perm (o :: os) e) = krons (M o (head 0%N e)) os (behead e).
  by move=> se; rewrite /ab_lift mE //; case: e se.
have eD : foldl muln 1%N (o :: os) = foldl muln o os by rewrite /= mul1n.
rewrite eD; apply: is_repM.
- move=> p /mapP [e /expsP [se _] ->]; rewrite L //; case: e se => // x e [se] /=.
  by apply: krons_size; rewrite ?size_roll ?wf_roll.
- move=> p q /mapP [e /expsP [se _] ->] /mapP [f /expsP [sf _] ->]; rewrite pE // !L ?sE //.
  case: e f se sf => // x e [] // y f [se] [sf] /=.
  by apply: krons_mul; rewrite ?size_roll ?wf_roll // mx_roll_mul.
- rewrite -(ab_id all0) L ?size_nseq //=; apply: krons_id; rewrite ?size_roll ?wf_roll //; exact: mx_roll0.
move=> p /mapP [e /expsP [se he] ->]; rewrite ab_inv // !L ?size_mkseq //.
case: e se he => // x e [se] he /=; set fs := map _ _.
have sf : size fs = size os by rewrite size_map size_iota.
have hz s a b : (s = b - a %% b -> a %% b <= b -> (a + s) %% b = 0)%N.
  by move=> -> h; rewrite -modnDml subnKC // modnn.
apply: krons_tr; rewrite ?size_roll ?wf_roll //.
  by apply: mx_roll_tr => //; apply: hz => //; rewrite ltnW // ltn_pmod.
move=> j hj; apply: (hz).
  by rewrite (nth_map 0%N) ?size_iota // nth_iota.
by rewrite ltnW // ltn_pmod //; move/allP: p0; apply; apply: mem_nth.
Qed.

(* ... and with direct_sum=True *)
Lemma ab_sum_rep : is_rep (sumn orders) (sumn orders) (ab_group orders) (ab_lift_sum R orders).
Proof.
have L e : size e = size orders -> ab_lift_sum R orders (ab_perm orders e) = dsums [::] orders e.
  by move=> se; rewrite /ab_lift_sum ab_matsE.
have eD : sumn orders = foldl addn 0%N orders by rewrite sumnE foldl_idx -foldrE //; exact: addn0.
have m0 (A : 'M[R]_0) B : A = B by apply/matrixP => -[].
rewrite {2}eD; apply: is_repM.
- move=> p /mapP [e /expsP [se _] ->]; rewrite L //; exact: dsums_size.
- move=> p q /mapP [e /expsP [se _] ->] /mapP [f /expsP [sf _] ->]; rewrite pmul_addexp // !L ?size_addexp //.
  by apply: dsums_mul.
- by rewrite -(ab_id pos) L ?size_nseq //; apply: dsums_id.
move=> p /mapP [e /expsP [se he] ->]; rewrite ab_inv // !L ?size_mkseq //.
apply: dsums_tr; rewrite ?size_mkseq // => j hj; rewrite nth_mkseq // -modnDml subnKC ?modnn //.
by rewrite ltnW // ltn_pmod // o_pos.
Qed.
End AbLift.
End LiftProofs.
