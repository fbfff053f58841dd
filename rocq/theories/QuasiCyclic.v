(* Quasi-cyclic codes: model of qldpc/codes/quantum.py:230-275 (the codes behind QCCode and BBCode). *)
From mathcomp Require Import all_ssreflect all_algebra zify.
From mathcomp Require Import mxtens.
From Verif Require Import LinAlg RowReduce Kron Classical ClassicalProofs ClassicalProofs2 Symplectic Quantum QuantumProofs QuantumOps.
From Verif Require Import Css CssForm CssLogs CssProofs CssGauge Product PermGroup Abelian GroupRing RingArray BBLayout QCPoly.
Set Implicit Arguments.
Unset Strict Implicit.
Unset Printing Implicit Defensive.
Import GRing.Theory.
Local Open Scope ring_scope.
Notation perm := PermGroup.perm.

(* ============================================================================== model *)
Section Model.
Variable F : fieldType.
(* galois (external): the field element that field(c) makes of an integer c (an exception is not modelled) *)
Variable fld : int -> F.
Variable orders : seq nat.
Notation k := (size orders).

(* quantum.py:273: self.symbol_gens[base] ** exponent, for the generator of the j-th factor of AbelianGroup( *orders) *)
Definition gen_pow (j : nat) (e : int) : perm :=
  ab_perm orders (mkseq (fun i => if i == j then `|(e %% nth 0%N orders j)%Z|%N else 0%N) k).
(* quantum.py:264-274: to_group_member of a monomial; sympy lists only the symbols that occur, here in the order of the
   symbols of the code *)
Definition to_member (es : seq int) : perm :=
  foldl pmul (pid (sumn orders)) [seq gen_pow j (nth 0 es j) | j <- iota 0 k & nth 0 es j != 0].
(* quantum.py:246-262: eval.  An expression is the list of its monomials (QCPoly.term); the integer 0 has none, and an
   expression with one monomial is an Integer, a Symbol, a Pow or a Mul *)
Definition eval_term (t : term) : rmem F := rm_make [:: (to_member t.2, fld t.1)].
Definition qc_eval (p : seq term) : rmem F :=
  match p with
  | [::] => eval_term (0, [::])
  | [:: t] => eval_term t
  | _ => foldl (@rm_add F) (rm_zero F) (map eval_term p)
  end.
(* quantum.py:230-244: the matrices and the code *)
Definition qc_dim : nat := foldl muln 1%N orders.
Definition qc_mat (p : seq term) : mat F := trl qc_dim (rm_lift qc_dim (ab_lift F orders) (qc_eval p)).
Definition qc_code (pa pb : seq term) : option (csscode F) := tb_code qc_dim qc_dim (qc_mat pa) (qc_mat pb) false.
End Model.

(* ============================================================================= proofs *)
(* ---- evaluation of polynomials *)
Section Eval.
Variable F : fieldType.
Variable fld : int -> F.
Variable orders : seq nat.
Hypothesis pos : all (ltn 0%N) orders.
Notation k := (size orders).
Notation N := (sumn orders).
Notation G := (ab_group orders).
Notation o_ j := (nth 0%N orders j).
Definition red (es : seq int) : seq nat := mkseq (fun j => `|(nth 0%R es j %% o_ j)%Z|%N) k.

Lemma to_memberE es : to_member orders es = ab_perm orders (red es).
Proof.
have -> : red es = mkseq (fun j => if j \in iota 0 k then `|(nth 0%R es j %% o_ j)%Z|%N else 0%N) k.
  by apply: (@eq_from_nth _ 0%N); rewrite ?size_mkseq // => j hj; rewrite !nth_mkseq // mem_iota add0n hj.
rewrite /to_member; elim/last_ind: (iota 0 k) (iota_uniq 0 k) => [|s j IH].
  move=> _ /=; rewrite -(ab_id pos); congr ab_perm; apply: (@eq_from_nth _ 0%N); rewrite ?size_nseq ?size_mkseq // => i hi.
  by rewrite nth_nseq hi nth_mkseq.
rewrite rcons_uniq => /andP [nj us]; rewrite filter_rcons; case: eqP => [z | nz] /=.
  rewrite IH //; congr ab_perm; apply: eq_map => i; rewrite mem_rcons in_cons; case: eqP => // ->.
  by rewrite (negbTE nj) z mod0z.
rewrite map_rcons foldl_rcons IH // pmul_ab //; congr ab_perm.
apply: (@eq_from_nth _ 0%N); rewrite ?size_mkseq // => i hi; rewrite !nth_mkseq // mem_rcons in_cons.
by case: eqP => [->|]; rewrite ?(negbTE nj) ?add0n ?addn0.
Qed.

Lemma to_member_in es : to_member orders es \in G. Proof. by rewrite to_memberE; apply: ab_in. Qed.

Lemma ok_eval_term t : rm_ok G (eval_term fld orders t).
Proof. by apply: ok_make; rewrite /= to_member_in. Qed.

Lemma ok_evals p x : rm_ok G x -> rm_ok G (foldl (@rm_add F) x (map (eval_term fld orders) p)).
Proof. by elim: p x => //= t p IH x ox; apply: IH; apply: ok_add => //; apply: ok_eval_term. Qed.

Lemma ok_eval p : rm_ok G (qc_eval fld orders p).
Proof. by case: p => [|t [|u p]]; rewrite ?ok_eval_term //; apply: ok_evals. Qed.

Lemma is_at_red t g : g \in exps orders -> is_at orders t g = (ab_perm orders (red t.2) == ab_perm orders g).
Proof.
move=> /expsP [sg hg]; apply/allP/eqP => [h | e i].
  congr ab_perm; apply: (@eq_from_nth _ 0%N); rewrite ?size_mkseq ?sg // => i hi.
  have := h i; rewrite mem_iota add0n hi => /(_ isT) /eqP e; rewrite nth_mkseq // e.
  by rewrite modz_small // ?absz_nat // ltz_nat hg.
rewrite mem_iota add0n => /= hi; apply/eqP.
have o0 : (0 < o_ i)%N by apply: (o_pos pos).
have h j : (j < k)%N -> (nth 0%N (red t.2) j < o_ j)%N.
  by move=> hj; rewrite nth_mkseq // -ltz_nat gez0_abs ?modz_ge0 ?ltz_pmod //; have := o_pos pos hj; case: (o_ j).
have := ab_inj pos h hg e hi; rewrite nth_mkseq // => <-.
by rewrite gez0_abs ?modz_mod // modz_ge0 //; case: (o_ i) o0.
Qed.

Lemma coef_eval_term t g : g \in exps orders -> coef (eval_term fld orders t) (ab_perm orders g) = if is_at orders t g then fld t.1 else 0.
Proof. by move=> hg; rewrite coef_make big_seq1 /= to_memberE is_at_red. Qed.

Lemma coef_evals p x g : rm_ok G x -> coef (foldl (@rm_add F) x (map (eval_term fld orders) p)) g =
  coef x g + \sum_(t <- p) coef (eval_term fld orders t) g.
Proof.
elim: p x => [|t p IH] x ox /=; first by rewrite big_nil addr0.
by rewrite IH ?(ok_add ox) ?ok_eval_term // (coef_add _ ox) ?ok_eval_term // big_cons addrA.
Qed.

(* the coefficient of a group member in the value of a polynomial *)
Theorem coef_eval p g : fld 0 = 0 -> g \in exps orders ->
  coef (qc_eval fld orders p) (ab_perm orders g) = \sum_(t <- p | is_at orders t g) fld t.1.
Proof.
move=> f0 hg; rewrite big_mkcond /=; case: p => [|t [|u p]].
- by rewrite big_nil coef_eval_term //= f0; case: ifP.
- by rewrite big_seq1 coef_eval_term.
rewrite /qc_eval coef_evals // coef_nil add0r; apply: eq_bigr => s _; exact: coef_eval_term.
Qed.

Lemma qc_dimE : qc_dim orders = size G.
Proof.
rewrite size_map size_exps /qc_dim.
have h os a : foldl muln a os = (a * foldr muln 1 os)%N by elim: os a => [|o os' IH] a /=; rewrite ?muln1 // IH mulnA.
by rewrite h mul1n.
Qed.

Hypothesis k0 : (0 < k)%N.
Notation D := (qc_dim orders).
Notation L := (ab_lift F orders).
Let gG : grp_ok N G := ab_group_ok pos.
Let rep : is_rep N D G L := ab_lift_rep F pos k0.

Lemma qc_mat_ok p : [/\ size (qc_mat fld orders p) = D, wf D (qc_mat fld orders p) &
  mx D D (qc_mat fld orders p) = (mx D D (rm_lift D L (qc_eval fld orders p)))^T].
Proof.
have [s1 w1 _] := lift_ok gG rep (ok_eval p); split; [by rewrite size_trl | by have := wf_trl D (rm_lift D L (qc_eval fld orders p)); rewrite s1 |].
by rewrite (mx_trl _ (m := D)).
Qed.

Theorem qc_commute pa pb : mcommute D (qc_mat fld orders pa) (qc_mat fld orders pb).
Proof.
apply/mcommuteP; have [_ _ ->] := qc_mat_ok pa; have [_ _ ->] := qc_mat_ok pb; rewrite -!trmx_mul; congr trmx.
by apply: (lift_comm gG rep) => [p q pG qG||]; rewrite ?ok_eval //; apply: (ab_comm pos).
Qed.

Theorem qc_ok pa pb : exists c, [/\ qc_code fld orders pa pb = Some c, c_ok c, c_sub c = false & (c_n c, c_x c, c_z c) =
  ((D + D)%N, hcat (qc_mat fld orders pa) (qc_mat fld orders pb),
   hcat (trl D (qc_mat fld orders pb)) (mopp (trl D (qc_mat fld orders pa))))].
Proof.
have [sA wA _] := qc_mat_ok pa; have [sB wB _] := qc_mat_ok pb; exact: tb_ok (qc_commute pa pb).
Qed.
End Eval.

(* ---- the lift of an AbelianGroup is its regular representation *)
Section Regular.
Variable R : comRingType.

Fixpoint shiftv (os ss f : seq nat) : seq nat :=
  match os, ss, f with
  | o :: os', s :: ss', x :: f' => ((x + s) %% o)%N :: shiftv os' ss' f'
  | _, _, _ => [::]
  end.

Lemma nth_pairs (T : Type) (x0 : T) (f : nat -> seq nat -> T) (E : seq (seq nat)) a o m : (m < o * size E)%N ->
  nth x0 [seq f x e | x <- iota a o, e <- E] m = f (a + m %/ size E)%N (nth [::] E (m %% size E)).
Proof.
elim: o a m => [|o IH] a m /=; first by rewrite mul0n.
rewrite mulSn nth_cat size_map => hm; case: ltnP => h; first by rewrite (nth_map [::]) // divn_small // modn_small // addn0.
have E0 : (0 < size E)%N by move: hm h; case: (size E) => //; rewrite muln0.
rewrite IH; last by rewrite ltn_subLR.
have -> : (m %/ size E = ((m - size E) %/ size E).+1)%N by rewrite -{1}(subnK h) divnDr // divnn E0 addn1.
have -> : (m %% size E = (m - size E) %% size E)%N by rewrite -{1}(subnK h) modnDr.
by rewrite addSnnS.
Qed.

Lemma nth_exps o os m : (m < o * size (exps os))%N ->
  nth [::] (exps (o :: os)) m = (m %/ size (exps os))%N :: nth [::] (exps os) (m %% size (exps os)).
Proof. by move=> h; rewrite /= nth_pairs. Qed.

Lemma ent_krons os ss d (A : mat R) i j : all (ltn 0%N) os -> size A = d -> wf d A -> size ss = size os ->
  (i < d * size (exps os))%N -> (j < d * size (exps os))%N ->
  ent (krons A os ss) i j = ent A (i %/ size (exps os)) (j %/ size (exps os)) *
    (nth [::] (exps os) (i %% size (exps os)) == shiftv os ss (nth [::] (exps os) (j %% size (exps os))))%:R.
Proof.
elim: os ss d A => [|o os IH] [|s ss] d A //=.
  by move=> _ sA wA _ hi hj; rewrite /krons /= !divn1 !modn1 /= mulr1.
move=> /andP [o0 pos] sA wA [se]; rewrite size_allpairs size_iota mulnA => hi hj.
set E := size (exps os).
have E0 : (0 < E)%N by move: hi; rewrite -/E; case: (E) => //; rewrite !muln0.
have sK : size (kron A (roll_eye R o s)) = (d * o)%N by rewrite size_kron sA size_roll.
have wK : wf (d * o) (kron A (roll_eye R o s)) by apply: wf_kron => //; apply: wf_roll.
have -> : krons A (o :: os) (s :: ss) = krons (kron A (roll_eye R o s)) os ss by [].
rewrite (IH _ _ _ pos sK wK) // -/E.
have hi' : (i %/ E < d * o)%N by rewrite ltn_divLR.
have hj' : (j %/ E < d * o)%N by rewrite ltn_divLR.
have q1 m : (m %/ E %/ o = m %/ (o * E))%N by rewrite -divnMA mulnC.
have q2 m : (m %/ E %% o = (m %% (o * E)) %/ E)%N.
  by rewrite {1}(divn_eq m (o * E)) mulnA divnMDl // modnMDl modn_small // ltn_divLR // ltn_pmod // muln_gt0 o0.
have q3 m : (m %% E = (m %% (o * E)) %% E)%N by rewrite modn_dvdm // dvdn_mull.
rewrite (ent_kron (n := d) (p := o)) ?wf_roll ?size_roll ?sA // ent_roll ?ltn_pmod //.
have hl m : (m %% (o * E) < o * E)%N by rewrite ltn_pmod // muln_gt0 o0.
have -> : nth [::] [seq x :: e | x <- iota 0 o, e <- exps os] (i %% (o * E)) = ((i %% (o * E)) %/ E)%N :: nth [::] (exps os) ((i %% (o * E)) %% E) by rewrite nth_pairs.
have -> : nth [::] [seq x :: e | x <- iota 0 o, e <- exps os] (j %% (o * E)) = ((j %% (o * E)) %/ E)%N :: nth [::] (exps os) ((j %% (o * E)) %% E) by rewrite nth_pairs.
rewrite /= eqseq_cons -!q1 -!q2 -!q3 -mulrA; congr (_ * _); rewrite -natrM mulnb.
by [].
Qed.

Lemma shiftvE orders ss f : size ss = size orders -> size f = size orders ->
  shiftv orders ss f = mkseq (fun t => (nth 0%N ss t + nth 0%N f t) %% nth 0%N orders t)%N (size orders).
Proof.
elim: orders ss f => [|o os IH] [|s ss] [|x f] //= [e1] [e2]; rewrite IH // /mkseq /= addnC; congr (_ :: _).
by rewrite (iotaDl 1 0) -map_comp.
Qed.

Theorem ab_lift_regular orders p : all (ltn 0%N) orders -> (0 < size orders)%N -> p \in ab_group orders ->
  ab_lift R orders p = regular_lift R (ab_group orders) p.
Proof.
move=> pos k0 pG; have [hw _ _ _] := ab_lift_rep R pos k0; have [s1 w1] := hw _ pG.
have eD : foldl muln 1%N orders = size (exps orders) by have := qc_dimE orders; rewrite /qc_dim size_map.
have sG : size (ab_group orders) = size (exps orders) by rewrite size_map.
rewrite eD in s1 w1; apply: (@mat_ext _ (size (exps orders)) (size (exps orders))); rewrite ?size_mkmat // /regular_lift sG ?wf_mkmat // => i j hi hj.
rewrite ent_mkmat //; case/mapP: pG => ss hs ->; have [se _] := expsP _ _ hs.
have hf : nth [::] (exps orders) j \in exps orders by apply: mem_nth.
have he : nth [::] (exps orders) i \in exps orders by apply: mem_nth.
have [sf _] := expsP _ _ hf.
have -> : ent (ab_lift R orders (ab_perm orders ss)) i j =
    (nth [::] (exps orders) i == shiftv orders ss (nth [::] (exps orders) j))%:R.
  rewrite /ab_lift ab_matsE //; clear - pos k0 se hi hj; case: orders ss pos k0 se hi hj => // o os [|s ss] // /andP [o0 pos] _ [se] hi hj.
  rewrite [X in ent X](_ : _ = krons (roll_eye R o s) os ss) //.
  have e : size (exps (o :: os)) = (o * size (exps os))%N by rewrite /= size_allpairs size_iota.
  rewrite e in hi hj; rewrite (ent_krons pos (d := o)) ?size_roll ?wf_roll //.
  have E0 : (0 < size (exps os))%N by move: hi; case: (size _) => //; rewrite muln0.
  rewrite ent_roll ?ltn_divLR // !nth_exps // /= eqseq_cons -natrM mulnb //.
have inj e f : e \in exps orders -> f \in exps orders -> ab_perm orders e = ab_perm orders f -> e = f.
  move=> /expsP [s2 h2] /expsP [s3 h3] eq; apply: (@eq_from_nth _ 0%N); rewrite s2 ?s3 // => t ht.
  exact: (ab_inj pos h2 h3 eq).
have hsh : shiftv orders ss (nth [::] (exps orders) j) \in exps orders.
  by rewrite shiftvE //; apply/expsP; rewrite size_mkseq; split=> // t ht; rewrite nth_mkseq // ltn_pmod // (o_pos pos).
have -> : pmul (ab_perm orders ss) (nth [::] (ab_group orders) j) = ab_perm orders (shiftv orders ss (nth [::] (exps orders) j)).
  rewrite /ab_group (nth_map [::]) // pmul_ab // shiftvE //; apply: ab_mod => // t ht.
  by rewrite !nth_mkseq // modn_mod.
congr ((nat_of_bool _)%:R).
have -> : (i == gindex (ab_group orders) (ab_perm orders (shiftv orders ss (nth [::] (exps orders) j)))) =
    (ab_perm orders (nth [::] (exps orders) i) == ab_perm orders (shiftv orders ss (nth [::] (exps orders) j))).
  have uG := g_uniq (ab_group_ok pos).
  have eqn : ab_perm orders (nth [::] (exps orders) i) = nth [::] (ab_group orders) i by rewrite /ab_group (nth_map [::]).
  apply/eqP/eqP => [e | e]; first by rewrite eqn e gindexK //; apply: map_f.
  by rewrite /gindex -e eqn index_uniq ?sG.
apply/eqP/eqP => [-> // | ]; exact: inj.
Qed.
End Regular.

(* ---- two-block codes whose blocks are symmetric under an involution have the same X-type and Z-type weights *)
Section Equal.
Variable F : fieldType.
(* v is a nontrivial logical operator: it satisfies the checks B and is not a combination of the checks A *)
Definition logical_word (n : nat) (A B : mat F) (v : seq F) : Prop :=
  [/\ size v = n, mulmv B v = nseq (size B) 0 & ~ span n A v].
Definition fweight (v : seq F) : nat := count (fun x => x != 0) v.

Variables (d : nat) (A B : mat F) (f : nat -> nat).
Hypotheses (sA : size A = d) (wA : wf d A) (sB : size B = d) (wB : wf d B).
Hypotheses (f_lt : forall j, (j < d)%N -> (f j < d)%N) (fK : forall j, (j < d)%N -> f (f j) = j).
Hypothesis hA : forall i j, (i < d)%N -> (j < d)%N -> ent A (f i) (f j) = ent A j i.
Hypothesis hB : forall i j, (i < d)%N -> (j < d)%N -> ent B (f i) (f j) = ent B j i.
Let X := hcat A B.
Let Z := hcat (trl d B) (mopp (trl d A)).

Definition flip (v : seq F) : seq F := mkseq (fun j => nth 0 v (d + f j)) d ++ mkseq (fun j => - nth 0 v (f j)) d.
Let P : 'M[F]_d := \matrix_(i, j) (j == f i :> nat)%:R.

Lemma mulP m (M : 'M[F]_(m, d)) i (j : 'I_d) : (M *m P) i j = M i (Ordinal (f_lt (ltn_ord j))).
Proof.
rewrite mxE (bigD1 (Ordinal (f_lt (ltn_ord j)))) //= mxE /= fK // eqxx mulr1 big1 ?addr0 // => k nk.
rewrite mxE; case: eqP => [e | _]; last by rewrite mulr0.
by move: nk; rewrite -val_eqE /= e fK // eqxx.
Qed.
Lemma PT : P^T = P.
Proof. by apply/matrixP => i j; rewrite !mxE; congr ((nat_of_bool _)%:R); apply/eqP/eqP => ->; rewrite fK. Qed.
Lemma PK : P *m P = 1%:M.
Proof. by apply/matrixP => i j; rewrite mulP !mxE /=; congr ((nat_of_bool _)%:R); rewrite -val_eqE; apply/eqP/eqP => [h|->//]; have := congr1 f h; rewrite !fK // => ->. Qed.
Lemma PMP (M : mat F) : (forall i j, (i < d)%N -> (j < d)%N -> ent M (f i) (f j) = ent M j i) -> P *m mx d d M *m P = (mx d d M)^T.
Proof.
move=> h; apply/matrixP => i j; rewrite mulP.
have -> : P *m mx d d M = ((mx d d M)^T *m P)^T by rewrite trmx_mul trmxK PT.
by rewrite mxE mulP !mxE h.
Qed.
Lemma mulPM (M : mat F) : (forall i j, (i < d)%N -> (j < d)%N -> ent M (f i) (f j) = ent M j i) -> mx d d M *m P = P *m (mx d d M)^T.
Proof. by move=> /PMP <-; rewrite !mulmxA PK mul1mx. Qed.

Lemma flip_size v : size (flip v) = (d + d)%N. Proof. by rewrite size_cat !size_mkseq. Qed.
Lemma rv_flip v (v1 v2 : 'rV[F]_d) : size v = (d + d)%N -> rv (d + d) v = row_mx v1 v2 ->
  rv (d + d) (flip v) = row_mx (v2 *m P) (- (v1 *m P)).
Proof.
move=> sv e; rewrite (rv_cat _ _ (n1 := d)) ?size_mkseq //; congr row_mx.
  apply/rowP => j; rewrite mxE nth_mkseq // mulP.
  have := congr1 (fun M : 'rV_(d + d) => M 0 (rshift d (Ordinal (f_lt (ltn_ord j))))) e.
  by rewrite /rv row_mxEr mxE.
apply/rowP => j; rewrite !mxE nth_mkseq //; have := mulP v1 0 j; rewrite mxE => ->; congr (- _).
have := congr1 (fun M : 'rV_(d + d) => M 0 (lshift d (Ordinal (f_lt (ltn_ord j))))) e.
by rewrite /rv row_mxEl mxE.
Qed.
Lemma flip_weight v : size v = (d + d)%N -> fweight (flip v) = fweight v.
Proof.
move=> sv; rewrite /fweight count_cat.
have fin : {in iota 0 d &, injective f}.
  by move=> i j; rewrite !mem_iota !add0n /= => hi hj e; rewrite -(fK hi) e fK.
have pf : perm_eq (map f (iota 0 d)) (iota 0 d).
  apply: uniq_perm; rewrite ?map_inj_in_uniq ?iota_uniq // => j; rewrite mem_iota add0n /=.
  apply/mapP/idP => [[i] | hj]; first by rewrite mem_iota add0n /= => hi ->; apply: f_lt.
  by exists (f j); rewrite ?mem_iota ?add0n /= ?f_lt // fK.
have vE : v = mkseq (fun j => nth 0 v j) d ++ mkseq (fun j => nth 0 v (d + j)) d.
  apply: (@eq_from_nth _ 0); rewrite ?size_cat ?size_mkseq // => i; rewrite sv => hi.
  rewrite nth_cat size_mkseq; case: ltnP => h; first by rewrite nth_mkseq.
  by rewrite nth_mkseq ?subnKC // ltn_subLR.
have q (g : nat -> F) : count (fun x => x != 0) (mkseq (fun j => g (f j)) d) = count (fun x => x != 0) (mkseq g d).
  have := seq.permP pf (fun j => g j != 0); rewrite count_map => e.
  by rewrite /mkseq !count_map; exact: e.
pose nz := fun x : F => x != 0; rewrite -/nz in q *.
transitivity (count nz (mkseq (nth 0%R v) d) + count nz (mkseq (fun j => nth 0%R v (d + j)) d))%N.
  rewrite addnC; congr (_ + _)%N; last exact: (q (fun j => nth 0 v (d + j))).
  apply: etrans (q (fun j => - nth 0 v j)) _; by rewrite /mkseq !count_map; apply: eq_count => j /=; rewrite /nz oppr_eq0.
by rewrite -count_cat -vE.
Qed.

Lemma flip2 v : size v = (d + d)%N -> flip (flip v) = map -%R v.
Proof.
move=> sv; apply: (@eq_from_nth _ 0); rewrite ?flip_size ?size_map ?sv // => i hi.
rewrite (nth_map 0) ?sv // /flip nth_cat size_mkseq; case: ltnP => h.
  rewrite nth_mkseq // nth_cat size_mkseq ltnNge leq_addr /= addKn nth_mkseq ?f_lt //.
  by rewrite fK.
have h' : (i - d < d)%N by rewrite ltn_subLR.
by rewrite nth_mkseq // nth_cat size_mkseq f_lt // nth_mkseq ?f_lt // fK // subnKC.
Qed.

Let a := mx d d A.
Let b := mx d d B.
Lemma sub_sp n m (M : mat F) k (v : 'M[F]_(k, n)) : size M = m -> (v <= sp n M)%MS = (v <= mx m n M)%MS.
Proof. by move=> <-. Qed.
Lemma sX : size X = d. Proof. by rewrite size_hcat ?sA ?sB. Qed.
Lemma sZ : size Z = d. Proof. by rewrite size_hcat ?size_mopp ?size_trl. Qed.
Lemma mxX : mx d (d + d) X = row_mx a b. Proof. by rewrite (mx_hcat _ (n1 := d)). Qed.
Lemma mxZ : mx d (d + d) Z = row_mx b^T (- a^T).
Proof.
have w : wf d (trl d B) by rewrite -{1}sB wf_trl.
by rewrite (mx_hcat _ (n1 := d)) ?size_mopp ?size_trl // mx_mopp !(mx_trl _ (m := d)).
Qed.
Lemma wX : wf (d + d) X. Proof. exact: wf_hcat. Qed.
Lemma wZ : wf (d + d) Z.
Proof.
have w1 : wf d (trl d B) by rewrite -{1}sB wf_trl.
have w2 : wf d (trl d A) by rewrite -{1}sA wf_trl.
by apply: wf_hcat => //; apply: wf_mopp.
Qed.
Lemma rv_parts (v : seq F) : rv (d + d) v = row_mx (lsubmx (rv (d + d) v)) (rsubmx (rv (d + d) v)).
Proof. by rewrite hsubmxK. Qed.

Lemma flip_X v : span (d + d) X v -> span (d + d) Z (flip v).
Proof.
move=> /spanP [sv]; rewrite (sub_sp _ sX) mxX => /submxP [c e]; apply/spanP; split; first exact: flip_size.
rewrite mul_mx_row in e; rewrite (rv_flip sv e) (sub_sp _ sZ) mxZ; apply/submxP; exists (c *m P).
rewrite mul_mx_row mulmxN; congr row_mx; rewrite -!mulmxA; first by rewrite (mulPM hB).
by rewrite (mulPM hA).
Qed.
Lemma flip_Z v : span (d + d) Z v -> span (d + d) X (flip v).
Proof.
move=> /spanP [sv]; rewrite (sub_sp _ sZ) mxZ => /submxP [c e]; apply/spanP; split; first exact: flip_size.
rewrite mul_mx_row in e; rewrite (rv_flip sv e) (sub_sp _ sX) mxX; apply/submxP; exists (- (c *m P)).
have q M : (forall i j, (i < d)%N -> (j < d)%N -> ent M (f i) (f j) = ent M j i) -> (mx d d M)^T *m P = P *m mx d d M.
  by move=> /PMP <-; rewrite -!mulmxA PK mulmx1.
rewrite mul_mx_row !mulNmx mulmxN mulNmx; congr (row_mx (- _) (- _)); rewrite -!mulmxA; first by rewrite q.
by rewrite q.
Qed.

Lemma checkP (M : mat F) v (N : 'M[F]_(d, d + d)) : size M = d -> wf (d + d) M -> size v = (d + d)%N -> mx d (d + d) M = N ->
  mulmv M v = nseq (size M) 0 <-> N *m (rv (d + d) v)^T = 0.
Proof.
move=> sM wM sv <-; rewrite -cvE -(cv_mulmv sM wM sv); split=> [-> | h].
  by apply/colP => i; rewrite !mxE nth_nseq; case: ifP.
apply: (@eq_from_nth _ 0); rewrite ?size_mulmv ?size_nseq // => i hi.
by have /colP /(_ (Ordinal (eq_ind _ (fun k => (i < k)%N) hi _ sM))) := h; rewrite !mxE /= nth_nseq hi.
Qed.

Lemma flip_kerZ v : size v = (d + d)%N -> mulmv Z v = nseq (size Z) 0 -> mulmv X (flip v) = nseq (size X) 0.
Proof.
move=> sv /(checkP sZ wZ sv mxZ); have e := rv_parts v; move: (lsubmx _) (rsubmx _) e => v1 v2 e.
rewrite e tr_row_mx mul_row_col mulNmx => h; apply/(checkP sX wX (flip_size v) mxX).
rewrite (rv_flip sv e) tr_row_mx mul_row_col linearN /= mulmxN !trmx_mul PT !mulmxA (mulPM hA) (mulPM hB).
by rewrite -!mulmxA -mulmxBr -opprB h oppr0 mulmx0.
Qed.
Lemma flip_kerX v : size v = (d + d)%N -> mulmv X v = nseq (size X) 0 -> mulmv Z (flip v) = nseq (size Z) 0.
Proof.
move=> sv /(checkP sX wX sv mxX); have e := rv_parts v; move: (lsubmx _) (rsubmx _) e => v1 v2 e.
rewrite e tr_row_mx mul_row_col => h; apply/(checkP sZ wZ (flip_size v) mxZ).
have q M : (forall i j, (i < d)%N -> (j < d)%N -> ent M (f i) (f j) = ent M j i) -> (mx d d M)^T *m P = P *m mx d d M.
  by move=> /PMP <-; rewrite -!mulmxA PK mulmx1.
rewrite (rv_flip sv e) tr_row_mx mul_row_col linearN /= mulNmx mulmxN opprK !trmx_mul PT !mulmxA !q //.
by rewrite -!mulmxA -mulmxDr addrC h mulmx0.
Qed.

Lemma span_opp n (M : mat F) v : span n M (map -%R v) -> span n M v.
Proof.
move=> /spanP [sv h]; rewrite size_map in sv; apply/spanP; split=> //.
have -> : rv n v = - rv n (map -%R v) by apply/rowP => j; rewrite !mxE (nth_map 0) ?sv // opprK.
by rewrite eqmx_opp.
Qed.

Theorem equal_weights w :
  (exists2 v, logical_word (d + d) X Z v & fweight v = w) <-> (exists2 v, logical_word (d + d) Z X v & fweight v = w).
Proof.
split=> -[v [sv kv nv] e]; exists (flip v); rewrite ?flip_weight //; split; rewrite ?flip_size //.
- exact: flip_kerZ.
- by move=> /flip_Z; rewrite flip2 // => /span_opp.
- exact: flip_kerX.
by move=> /flip_X; rewrite flip2 // => /span_opp.
Qed.
End Equal.

Section QC.
Variable F : fieldType.
Variable fld : int -> F.
Variable orders : seq nat.
Hypotheses (pos : all (ltn 0%N) orders) (k0 : (0 < size orders)%N).
Notation D := (qc_dim orders).
Notation G := (ab_group orders).

Theorem qc_equal pa pb w : let A := qc_mat fld orders pa in let B := qc_mat fld orders pb in
  let X := hcat A B in let Z := hcat (trl D B) (mopp (trl D A)) in
  (exists2 v, logical_word (D + D) X Z v & fweight v = w) <-> (exists2 v, logical_word (D + D) Z X v & fweight v = w).
Proof.
move=> A B X Z; have gG := ab_group_ok pos.
have [sA wA _] := qc_mat_ok fld pos k0 pa; have [sB wB _] := qc_mat_ok fld pos k0 pb.
have eD := qc_dimE orders.
pose f j := gindex G (pinv (nth [::] G j)).
have vG g : g \in G -> valid (sumn orders) g by apply: (g_valid gG).
have f_lt j : (j < D)%N -> (f j < D)%N by rewrite eD => hj; apply: gindex_lt; apply: (g_inv gG); apply: mem_nth.
have fK j : (j < D)%N -> f (f j) = j.
  rewrite eD /f => hj; have hG := mem_nth [::] hj; rewrite gindexK ?(g_inv gG) // (@pinvK (sumn orders)) ?vG //.
  exact: (gindex_nth gG hj).
have h p i j : (i < D)%N -> (j < D)%N -> ent (qc_mat fld orders p) (f i) (f j) = ent (qc_mat fld orders p) j i.
  move=> hi hj.
  have e x y : (x < D)%N -> (y < D)%N -> ent (qc_mat fld orders p) x y =
      coef (qc_eval fld orders p) (pmul (nth [::] G y) (pinv (nth [::] G x))).
    move=> hx hy; have [sL wL _] := lift_ok gG (ab_lift_rep F pos k0) (ok_eval fld pos p).
    rewrite /qc_mat ent_trl ?sL //.
    have -> : rm_lift D (ab_lift F orders) (qc_eval fld orders p) = rm_lift (size G) (regular_lift F G) (qc_eval fld orders p).
      rewrite -eD /rm_lift; congr (foldl _ _ _); apply/eq_in_map => t; rewrite mem_filter => /andP [_ tx].
      by rewrite ab_lift_regular // (rm_okP (ok_eval fld pos p)).
    by rewrite (reg_entry gG (ok_eval fld pos p)) -?eD.
  rewrite !e ?f_lt //; rewrite eD in hi hj; have hi' := mem_nth [::] hi; have hj' := mem_nth [::] hj.
  rewrite /f !gindexK ?(g_inv gG) // (@pinvK (sumn orders)) ?vG //; congr coef.
  by rewrite (ab_comm pos) ?(g_inv gG).
exact: (equal_weights sA wA sB wB f_lt fK (h pa) (h pb)).
Qed.
End QC.
