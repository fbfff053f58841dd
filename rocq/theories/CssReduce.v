(* Reduced logical operators of CSS codes (common.py:2174-2215) and exact distances of qudit codes (common.py:1295-1325): proofs. *)
From Coq Require Import NArith List.
From mathcomp Require Import all_ssreflect all_algebra zify.
From Verif Require Import LinAlg RowReduce Classical ClassicalProofs ClassicalProofs2 ClassicalDist.
From Verif Require Import Symplectic Quantum QuantumProofs QuantumLogs Css CssLogs CssProofs CssGauge QuantumDist CssDist.
From Verif Require BitWeight Pack GrayCode.
Set Implicit Arguments.
Unset Strict Implicit.
Unset Printing Implicit Defensive.
Import GRing.Theory.
Local Open Scope ring_scope.

(* ====================================================================== specification *)
Section Spec.
Variable F : fieldType.
(* the operators of L' act on the logical qudits like those of L: they differ by stabilizers *)
Definition same_logicals (n : nat) (A L L' : seq (seq F)) : Prop :=
  size L' = size L /\ forall i, (i < size L)%N -> central n A (vsub (nth [::] L' i) (nth [::] L i)).
(* the decoder always finds a solution of minimum weight *)
Definition optimal (n : nat) (dec : nat -> seq (seq F) -> seq F -> seq F) : Prop :=
  forall i chk syn e, size e = n -> mulmv chk e = syn -> (hwt (dec i chk syn) <= hwt e)%N.
End Spec.

(* =============================================================================== proofs *)
Section Proofs.
Variable F : fieldType.
Notation vec := (seq F).
Notation mat := (seq (seq F)).
Implicit Types c : csscode F.

Lemma reduce_loopP fuel n chk syn (dec : nat -> mat -> vec -> vec) i w : c_reduce_loop fuel n chk syn dec i = Some w ->
  [/\ size w = n, mulmv chk w = syn & exists j, w = dec j chk syn].
Proof.
elim: fuel i => //= f IH i; case: ifP => // /negbFE /eqP s; case: ifP => [/eqP e [<-]|_ /IH //].
by split=> //; exists i.
Qed.

Lemma vunit_split m k i : vunit F (m + k) (m + i) = nseq m 0 ++ vunit F k i.
Proof.
apply: (@eq_from_nth _ 0); first by rewrite size_cat !size_mkseq size_nseq.
move=> j; rewrite size_mkseq => lj; rewrite nth_mkseq // nth_cat size_nseq nth_nseq.
case: ltnP => h; first by rewrite eqF //; lia.
by rewrite nth_mkseq ?ltn_subLR // -[in RHS](eqn_add2l m) subnKC.
Qed.

Section Side.
Variables (n k : nat) (P W l m : mat) (idx : nat) (w : vec).
Hypotheses (sl : size l = k) (sm : size m = k) (wl : wf n l) (wm : wf n m) (wW : wf n W).
Hypotheses (lW : mx k n l *m (sp n W)^T = 0) (mP : mx k n m *m (sp n P)^T = 0) (lm : mx k n l *m (mx k n m)^T = 1%:M).
Hypothesis cnt : (n + \rank (sp n P *m (sp n W)^T) = k + (\rank (sp n P) + \rank (sp n W)))%N.
Hypotheses (li : (idx < k)%N) (sw : size w = n) (eqs : mulmv (W ++ m) w = vunit F (size W + k) (size W + idx)).

Let oi : 'I_k := Ordinal li.

Lemma new_W : rv n w *m (sp n W)^T = 0.
Proof.
apply/is_wordE => //; apply: mulmv_word => //; move: eqs; rewrite mulmv_cat vunit_split => /eqP.
by rewrite eqseq_cat ?size_map ?size_nseq // => /andP [/eqP].
Qed.
Lemma new_m : rv n w *m (mx k n m)^T = delta_mx 0 oi.
Proof.
move: eqs; rewrite mulmv_cat vunit_split => /eqP; rewrite eqseq_cat ?size_map ?size_nseq // => /andP [_ /eqP e].
apply/rowP => j; rewrite [RHS]mxE eqxx /= -val_eqE /=.
have sj : (j < size m)%N by rewrite sm.
have : nth 0 (mulmv m w) j = ((j : nat) == idx)%:R by rewrite e nth_mkseq.
rewrite (nth_map [::]) // => <-; have sr : size (nth [::] m j) = n by apply: wf_nth.
by rewrite (dotE sr sw) mxE; apply: eq_bigr => t _; rewrite !mxE mulrC.
Qed.

Definition l' : mat := set_nth [::] l idx w.
Lemma size_l' : size l' = k.
Proof. by rewrite size_set_nth sl; apply/maxn_idPr. Qed.
Lemma wf_l' : wf n l'.
Proof.
apply/wfP => r /(nthP [::]) [i]; rewrite size_l' nth_set_nth /= => hi <-; case: eqP => // _.
by apply: wf_nth => //; rewrite sl.
Qed.
Lemma row_l' (i : 'I_k) : row i (mx k n l') = if i == oi then rv n w else row i (mx k n l).
Proof.
by apply/rowP => j; rewrite !mxE /ent nth_set_nth /= -val_eqE; case: ifP => _; rewrite !mxE.
Qed.
Lemma l'W : mx k n l' *m (sp n W)^T = 0.
Proof.
apply/row_matrixP => i; rewrite row_mul row0 row_l'; case: ifP => _; first exact: new_W.
by rewrite -row_mul lW row0.
Qed.
Lemma l'm : mx k n l' *m (mx k n m)^T = 1%:M.
Proof.
apply/row_matrixP => i; rewrite row_mul row_l' row1; case: ifP => [/eqP ->|_]; first by rewrite new_m.
by rewrite -row_mul lm row1.
Qed.

Lemma old_eqs : mulmv (W ++ m) (nth [::] l idx) = vunit F (size W + k) (size W + idx).
Proof.
set o := nth [::] l idx; have so : size o = n by apply: wf_nth; rewrite // sl.
have eo : rv n o = row oi (mx k n l) by apply/rowP => j; rewrite !mxE /ent.
rewrite mulmv_cat vunit_split; congr (_ ++ _).
  have /(is_wordE _ so) [_ h] : rv n o *m (sp n W)^T = 0 by rewrite eo -row_mul lW row0.
  apply: (@eq_from_nth _ 0); first by rewrite size_map size_nseq.
  move=> i; rewrite size_map => hi; rewrite (nth_map [::]) // nth_nseq hi.
  have sr : size (nth [::] W i) = n by apply: wf_nth.
  by rewrite (dotE sr so); apply: h; apply: mem_nth.
have h : rv n o *m (mx k n m)^T = delta_mx 0 oi by rewrite eo -row_mul lm row1.
apply: (@eq_from_nth _ 0); first by rewrite size_map size_mkseq sm.
move=> i; rewrite size_map => hi; have sr : size (nth [::] m i) = n by apply: wf_nth.
rewrite (nth_map [::]) // (dotE sr so); rewrite sm in hi; rewrite nth_mkseq //.
move/rowP: h => /(_ (Ordinal hi)); rewrite [RHS]mxE eqxx -val_eqE /= => <-.
by rewrite mxE; apply: eq_bigr => t _; rewrite !mxE /ent mulrC.
Qed.

Lemma diff_stab : (rv n w - rv n (nth [::] l idx) <= sp n P :&: kermx (sp n W)^T)%MS.
Proof.
set o := nth [::] l idx; have eo : rv n o = row oi (mx k n l) by apply/rowP => j; rewrite !mxE /ent.
have dW : (rv n w - rv n o) *m (sp n W)^T = 0 by rewrite mulmxBl new_W eo -row_mul lW row0 subrr.
have dm : (rv n w - rv n o) *m (mx k n m)^T = 0 by rewrite mulmxBl new_m eo -row_mul lm row1 subrr.
rewrite sub_capmx; apply/andP; split; last exact/sub_kermxP.
have : (rv n w - rv n o <= kermx (sp n W :&: kermx (sp n P)^T)%MS^T)%MS.
  apply/sub_kermxP; have /submxP [D ->] : (sp n W :&: kermx (sp n P)^T <= sp n W)%MS by rewrite capmxSl.
  by rewrite trmx_mul mulmxA dW mul0mx.
rewrite (side_ker lW mP lm cnt) => /sub_addsmxP [[p a] /= e].
have : a = 0.
  have Pm : sp n P *m (mx k n m)^T = 0 by apply: trmx_inj; rewrite trmx_mul trmxK mP trmx0.
  by move: dm; rewrite e mulmxDl -!mulmxA Pm lm mulmx0 add0r mulmx1.
by move=> a0; rewrite e a0 mul0mx addr0 submxMl.
Qed.
End Side.

Lemma set_nth_catl (T : Type) (d : T) (A B : seq T) i x : (i < size A)%N -> set_nth d (A ++ B) i x = set_nth d A i x ++ B.
Proof. by elim: A i => // a A IH [|i] //= hi; rewrite IH. Qed.
Lemma set_nth_catr (T : Type) (d : T) (A B : seq T) i x : set_nth d (A ++ B) (size A + i) x = A ++ set_nth d B i x.
Proof. by elim: A => //= a A ->. Qed.
Lemma map_set_nth (T U : Type) (f : T -> U) (d : T) (e : U) (A : seq T) i x : (i < size A)%N ->
  set_nth e (map f A) i (f x) = map f (set_nth d A i x).
Proof. by elim: A i => // a A IH [|i] //= hi; rewrite IH. Qed.

(* one step, explicitly *)
Lemma reduce_op_ok c x idx fuel dec c' : c_ok c -> c_reduce_op c x idx fuel dec = Some c' ->
  let n := c_n c in
  exists lx lz lx' lz' w j, [/\ c_get_logical_ops c false = Some (bdiag n n lx lz), c' = c_set_logs c (bdiag n n lx' lz'),
     [/\ (idx < c_dimension c)%N, size w = n, w = dec j (c_checks c (~~ x) ++ (if x then lz else lx)) (vunit F (size (c_checks c (~~ x)) + c_dimension c) (size (c_checks c (~~ x)) + idx)),
         css_dual n (c_dimension c) (c_x c) (c_z c) lx lz
       & lx' = (if x then set_nth [::] lx idx w else lx) /\ lz' = (if x then lz else set_nth [::] lz idx w)],
     css_dual n (c_dimension c) (c_x c) (c_z c) lx' lz'
   & (let o := nth [::] (if x then lx else lz) idx in
      central n (c_mat c) (emb x n (vsub w o)) /\
      mulmv (c_checks c (~~ x) ++ (if x then lz else lx)) o = vunit F (size (c_checks c (~~ x)) + c_dimension c) (size (c_checks c (~~ x)) + idx))].
Proof.
move=> ok; have [_ wX wW _ _] := ok; rewrite /c_reduce_op; case: ifP => // /negbFE li.
have hc := c_counts ok; have [lx [lz [e1 e2 e3 [w1 w2] lb]]] := c_logicals_pauli ok.
have sx : size lx = c_dimension c.
  move: e1; rewrite /c_get_logical_ops_pauli e3; case: ifP => // /eqP sL [<-].
  by rewrite /x_part size_map size_takel // sL leq_addr.
have cd := basis_css_dual wX wW w1 w2 sx lb; have [[_ sz] _ h1 h2 h3] := cd.
have [eg cnt] := proj1 (counts_css _ _ wX wW) hc; rewrite eg in cnt.
rewrite e3; set n := c_n c in wX wW w1 w2 cd h1 h2 h3 cnt e3 *; set k := c_dimension c in li sx sz cd h1 h2 h3 cnt *.
have -> : c_get_logical_ops_pauli c (~~ x) = Some (if x then lz else lx) by case: x.
case E: c_reduce_loop => [w|] // [<-] /=; have [sw ew [j ej]] := reduce_loopP E; clear E.
have cen d : (rv n d <= (if x then sp n (c_x c) :&: kermx (sp n (c_z c))^T else sp n (c_z c) :&: kermx (sp n (c_x c))^T))%MS ->
    size d = n -> central n (c_mat c) (emb x n d).
  move=> hd sd; apply/(centralP _ (wf_css wX wW)); rewrite size_emb sd; split=> //.
  by rewrite (css_center wX wW) rv_emb //; case: (x) hd => hd; rewrite row_block hd sub0mx.
case: x ej ew cen => /= ej ew cen.
  have so1 : size (nth [::] lx idx) = n by apply: wf_nth; rewrite ?sx.
  exists lx, lz, (set_nth [::] lx idx w), lz, w, j; split=> //.
  - congr c_set_logs; rewrite /bdiag set_nth_catl ?size_map ?sx //; congr (_ ++ _).
    rewrite (nth_cat) size_map sx li (nth_map [::]) ?sx // drop_size_cat //.
    by apply: (@map_set_nth _ _ (fun r => r ++ nseq n 0)); rewrite sx.
  - split; [split; [exact: size_l' | exact: sz] | split; [exact: (wf_l' sx w1 li sw) | exact: w2] | | exact: h2 |].
      exact: (l'W wW h1 li sw ew).
    exact: (l'm sz w2 h3 li sw ew).
  split; last exact: (old_eqs sx sz w1 w2 wW h1 h3 li).
  apply: cen; last by rewrite size_vsub sw ?so1.
  by rewrite rv_sub ?sw ?so1 //; apply: (diff_stab sz w2 wW h1 h2 h3 cnt li sw ew).
have h3' : mx k n lz *m (mx k n lx)^T = 1%:M by apply: trmx_inj; rewrite trmx_mul trmxK h3 trmx1.
have cnt' : (n + \rank (sp n (c_z c) *m (sp n (c_x c))^T) = k + (\rank (sp n (c_z c)) + \rank (sp n (c_x c))))%N.
  have -> : \rank (sp n (c_z c) *m (sp n (c_x c))^T) = \rank (sp n (c_x c) *m (sp n (c_z c))^T) by rewrite -mxrank_tr trmx_mul trmxK.
  by rewrite cnt [(_ + \rank (sp n (c_z c)))%N]addnC.
have so1 : size (nth [::] lz idx) = n by apply: wf_nth; rewrite ?sz.
exists lx, lz, lx, (set_nth [::] lz idx w), w, j; split=> //.
- congr c_set_logs; rewrite /bdiag -{1}sx -(size_map (fun r => r ++ nseq n 0) lx) set_nth_catr; congr (_ ++ _).
  rewrite nth_cat size_map sx ltnNge leq_addr /= addKn (nth_map [::]) ?sz // take_size_cat ?size_nseq //.
  by apply: (@map_set_nth _ _ (fun r => nseq n 0 ++ r)); rewrite sz.
- split; [split; [exact: sx | exact: size_l'] | split; [exact: w1 | exact: (wf_l' sz w2 li sw)] | exact: h1 | |].
    exact: (l'W wX h2 li sw ew).
  by apply: trmx_inj; rewrite trmx_mul trmxK trmx1; exact: (l'm sx w1 h3' li sw ew).
split; last exact: (old_eqs sz sx w2 w1 wX h2 h3' li).
apply: cen; last by rewrite size_vsub sw ?so1.
by rewrite rv_sub ?sw ?so1 //; apply: (diff_stab sx w1 wX h2 h1 h3' cnt' li sw ew).
Qed.

Lemma stab_set_logs c L a b : (c_get_stabilizer_ops (c_set_logs c L) a b).1 = (c_get_stabilizer_ops c a b).1.
Proof. by rewrite /c_get_stabilizer_ops /=; case: (c_sub c) => //=; case: ifP. Qed.

(* c' differs from c by equivalent logical operators *)
Definition reduced (opt : bool) c c' : Prop :=
  let n := c_n c in
  [/\ c_ok c', [/\ c_n c' = n, c_x c' = c_x c, c_z c' = c_z c & c_dimension c' = c_dimension c], gauge_ok c -> gauge_ok c'
   & exists L L', [/\ c_get_logical_ops c false = Some L, c_get_logical_ops c' false = Some L',
        logical_basis n (c_dimension c) (c_mat c) L', same_logicals n (c_mat c) L L'
      & opt -> forall i, (i < size L)%N -> (qwt n (nth [::] L' i) <= qwt n (nth [::] L i))%N]].

Lemma central_zero n (A : mat) (v : vec) : wf (n + n) A -> size v = (n + n)%N -> central n A (vsub v v).
Proof.
move=> wA sv; apply/centralP => //; rewrite size_vsub ?sv //; split=> //.
by rewrite rv_sub // subrr sub0mx.
Qed.

Lemma reduced_refl opt c : c_ok c -> reduced opt c c.
Proof.
move=> ok; have [_ wX wW _ _] := ok; split=> //; have [lx [lz [e1 s1 s2 lb]]] := c_logicals_ok false ok.
exists (bdiag (c_n c) (c_n c) lx lz), (bdiag (c_n c) (c_n c) lx lz); split=> //; split=> // i li.
apply: central_zero; first exact: wf_css.
by have [[_ wL _] _] := lb; apply: wf_nth.
Qed.

Lemma reduced_trans opt a b c : c_ok a -> reduced opt a b -> reduced opt b c -> reduced opt a c.
Proof.
move=> oka [okb [nb xb zb db] gb [L [L1 [e e1 lb1 [s1 h1] q1]]]] [okc [nc xc zc dc] gc [L1' [L2 [e1' e2 lb2 [s2 h2] q2]]]].
rewrite nb xb zb db in nc xc zc dc.
have mb : c_mat b = c_mat a by rewrite /c_mat nb xb zb.
rewrite nb db mb in lb2 h2 q2; move: e1'; rewrite e1 => -[eL]; subst L1'.
split=> //; first by move=> /gb /gc.
exists L, L2; split=> //; last first.
  by move=> o i li; apply: leq_trans (q2 o i _) (q1 o i li); rewrite s1.
have [_ wX wW _ _] := oka; have wA : wf (c_n a + c_n a) (c_mat a) := wf_css wX wW.
have [[_ w1 _] _] := lb1; have [[_ w2 _] _] := lb2.
have [lx [lz [e' _ _ [[_ w0 _] _]]]] := c_logicals_ok false oka; move: e'; rewrite e => -[e']; rewrite -e' in w0.
split; first by rewrite s2.
move=> i li; have [_ a1] := proj1 (centralP _ wA) (h1 i li).
have li1 : (i < size L1)%N by rewrite s1.
have [_ a2] := proj1 (centralP _ wA) (h2 i li1).
have z0 : size (nth [::] L i) = (c_n a + c_n a)%N by apply: wf_nth.
have z1 : size (nth [::] L1 i) = (c_n a + c_n a)%N by apply: wf_nth.
have z2 : size (nth [::] L2 i) = (c_n a + c_n a)%N by apply: wf_nth; rewrite // s2.
apply/centralP => //; rewrite size_vsub ?z2 ?z0 //; split=> //.
move: a1 a2; rewrite !rv_sub ?z0 ?z1 ?z2 // => a1 a2.
by have := addmx_sub a2 a1; rewrite addrA subrK.
Qed.

Lemma vsub_cat (a b u v : vec) : size a = size u -> vsub (a ++ b) (u ++ v) = vsub a u ++ vsub b v.
Proof. by move=> e; rewrite /vsub zip_cat // map_cat. Qed.
Lemma vsub_zeros n : vsub (nseq n 0) (nseq n 0) = nseq n 0 :> vec.
Proof. by elim: n => //= n IH; rewrite -[in RHS]IH /vsub /= subrr. Qed.
Lemma emb_vsub x n (u v : vec) : size u = size v -> vsub (emb x n u) (emb x n v) = emb x n (vsub u v).
Proof. by move=> e; case: x; rewrite /emb vsub_cat ?vsub_zeros ?size_nseq. Qed.

Lemma reduce_step (opt : bool) c x idx fuel dec c' : c_ok c -> (opt -> optimal (c_n c) dec) ->
  c_reduce_op c x idx fuel dec = Some c' -> reduced opt c c'.
Proof.
move=> ok ho h; have [lx [lz [lx' [lz' [w [j [e ec' [li sw ew cd [ex ez]] cd' [cen old]]]]]]]] := reduce_op_ok ok h.
have [okq wX wW hs hl] := ok; have lb' := css_dual_basis wX wW cd'; have hc := c_counts ok.
set n := c_n c in wX wW hs hl cd cd' lb' hc sw cen e ec' *; set k := c_dimension c in li cd cd' lb' hc ew old *.
have [[s1 s2] [w1 w2] _ _ _] := cd; have [[s1' s2'] [w1' w2'] _ _ _] := cd'.
have okc' : c_ok c'.
  rewrite ec'; have [o1 o2 o3 o4 o5] := okq; split=> //=; last by move=> l [<-]; exists lx', lz'; rewrite s1' s2'.
  by split=> //= l [<-]; exists k, (c_gauge_dimension c).
have dim' : c_dimension c' = k.
  by have := c_counts okc'; rewrite {1 2 3 4}ec' /= => hc'; have [] := counts_unique (wf_css wX wW) hc' hc.
split=> //.
- by rewrite dim'; split=> //; rewrite ec'.
- by rewrite ec' /gauge_ok stab_set_logs.
exists (bdiag n n lx lz), (bdiag n n lx' lz'); split=> //.
- by rewrite ec' /c_get_logical_ops.
- split; first by rewrite !size_bdiag s1 s1' s2 s2'.
  move=> i; rewrite size_bdiag s1 s2 => hi; rewrite !nth_bdiag ?s1 ?s1' ?s2 ?s2' //.
  have zero v : size v = (n + n)%N -> central n (c_mat c) (vsub v v) by apply: central_zero; apply: wf_css.
  case: ltnP => hik.
    have si : size (nth [::] lx i) = n by apply: wf_nth; rewrite ?s1.
    rewrite ex; case: (x) cen => cen; last by apply: zero; rewrite size_cat size_nseq si.
    rewrite nth_set_nth /=; case: eqP => [ei|_]; last by apply: zero; rewrite size_cat size_nseq si.
    rewrite (@emb_vsub true) ?ei; last by rewrite sw -ei si.
    exact: cen.
  have hik' : (i - k < k)%N by rewrite ltn_subLR.
  have si : size (nth [::] lz (i - k)) = n by apply: wf_nth; rewrite ?s2.
  rewrite ez; case: (x) cen => cen; first by apply: zero; rewrite size_cat size_nseq si.
  rewrite nth_set_nth /=; case: eqP => [ei|_]; last by apply: zero; rewrite size_cat size_nseq si.
  rewrite (@emb_vsub false) ?ei; last by rewrite sw -ei si.
  exact: cen.
move=> o i; rewrite size_bdiag s1 s2 => hi; rewrite !nth_bdiag ?s1 ?s1' ?s2 ?s2' //.
have op := ho o; case: ltnP => hik.
  have si : size (nth [::] lx i) = n by apply: wf_nth; rewrite ?s1.
  rewrite ex; case: (x) old ew => /= old ew //; rewrite nth_set_nth /=; case: eqP => // ei.
  rewrite (@qwt_emb _ true) // (@qwt_emb _ true) // ew; apply: op; rewrite // ei //.
have hik' : (i - k < k)%N by rewrite ltn_subLR.
have si : size (nth [::] lz (i - k)) = n by apply: wf_nth; rewrite ?s2.
rewrite ez; case: (x) old ew => /= old ew //; rewrite nth_set_nth /=; case: eqP => // ei.
rewrite (@qwt_emb _ false) // (@qwt_emb _ false) // ew; apply: op; rewrite // ei //.
Qed.

Lemma reduce_pauli_ok (opt : bool) c x fuel dec c' : c_ok c -> (opt -> forall i, optimal (c_n c) (dec i)) ->
  c_reduce_ops_pauli c x fuel dec = Some c' -> reduced opt c c'.
Proof.
move=> ok ho; rewrite /c_reduce_ops_pauli.
have : forall s a, reduced opt c a -> foldl (fun oc idx => if oc is Some c then c_reduce_op c x idx fuel (dec idx) else None) (Some a) s = Some c' ->
    reduced opt c c'.
  elim=> [|i s IH] a ra /=; first by case=> <-.
  case E: c_reduce_op => [b|]; last by elim: s {IH}.
  apply: IH; apply: (reduced_trans ok ra); have [oka [na _ _ _] _ _] := ra; apply: (reduce_step oka _ E).
  by rewrite na => /ho.
by apply; apply: reduced_refl.
Qed.

Lemma reduce_ops_ok (opt : bool) c pauli fuel dec c' : c_ok c -> (opt -> forall x i, optimal (c_n c) (dec x i)) ->
  c_reduce_ops c pauli fuel dec = Some c' -> reduced opt c c'.
Proof.
move=> ok ho; rewrite /c_reduce_ops; case: pauli => [x|]; first by apply: reduce_pauli_ok => // /ho.
case E: c_reduce_ops_pauli => [c1|] //.
have r1 : reduced opt c c1 by apply: reduce_pauli_ok E => // /ho.
have [ok1 [n1 _ _ _] _ _] := r1 => E2; apply: (reduced_trans ok r1); apply: reduce_pauli_ok E2 => //.
by rewrite n1 => /ho.
Qed.

(* ---------------------------------------------------------------- qudit codes *)
Lemma foldl_minn_start n (t : seq nat) d : pymin t = Some d -> (d <= n)%N -> foldl minn n t = d.
Proof.
case: t => //= y s [<-] le; have [h1 h2] := foldl_minn y s; have [h3 h4] := foldl_minn (minn n y) s.
apply/eqP; rewrite eqn_leq; apply/andP; split.
  move: h1; rewrite inE => /orP [/eqP -> |hin]; last by apply: h4; rewrite inE hin orbT.
  by apply: leq_trans (h4 _ (mem_head _ _)) (geq_minr _ _).
move: h3; rewrite inE => /orP [/eqP -> |hin]; last by apply: h2; rewrite inE hin orbT.
by rewrite leq_min le; apply: h2; apply: mem_head.
Qed.

Lemma q_search_ok be (el : vec) (c : qcode F) L G : q_ok c -> uniq (0 :: el) -> (forall y, y \in 0 :: el) ->
  (size el = 1%N -> (N.of_nat (q_n c + q_n c) < Pack.first_modulus be)%num) -> q_dimension c <> 0%N ->
  get_logical_ops c = Some L -> logical_basis (q_n c) (q_dimension c) (q_mat c) L -> q_get_gauge_ops c = Some G ->
  wf (q_n c + q_n c) G ->
  (forall v, span (q_n c + q_n c) ((get_stabilizer_ops c false true).1 ++ G) v <-> span (q_n c + q_n c) (q_mat c) v) ->
  exists2 d, q_search be (0 :: el) c = Some d & is_qdist (q_n c) (q_mat c) d.
Proof.
move=> ok uel ael hM k0 eL lb eG wG hs; have [wA _ _ _ _] := ok; have hc := dimension_counts ok.
rewrite /q_search eL eG; set n := q_n c in wA hc lb wG hs hM *.
have -> : (if q_sub c then G else [::]) = G.
  by move: eG; rewrite /q_get_gauge_ops; case: (q_sub c) => //= -[].
set stabs := _ ++ G in hs *; have [[sL wL _] _] := lb.
have [wS _ _ _ _] := stab_ops_ok false true ok.
have w2 : wf (n + n) stabs by rewrite wf_cat wS.
have eS := proj1 (span_eqmx _ _ _) hs; have fr := logs_free wA lb.
have L0 : L <> [::] by move=> l0; apply: k0; move: sL; rewrite l0 /=; clear; lia.
have n0 : (0 < n + n)%N.
  rewrite lt0n; apply/eqP => n0; have := rank_leq_col (sp (n + n) L); have /eqP -> := fr.
  by rewrite n0 leqn0 => /eqP s0; apply: L0; apply: size0nil.
have hop v : size v = (n + n)%N -> nontrivial n (q_mat c) v <-> oper (n + n) L stabs v.
  move=> sv; rewrite (nontrivial_comb wA lb hc sv) /oper -comb_split //.
  by split=> -[a [nz h]]; exists a; split=> //; move: h; rewrite eS.
have tr d : is_min (qwt n) (oper (n + n) L stabs) d -> is_qdist n (q_mat c) d.
  have so w : oper (n + n) L stabs w -> size w = (n + n)%N by move=> [a [t [_ _ _ ->]]]; rewrite size_vadd ?size_vmulm.
  move=> [[w hw ew] hm]; split; first by exists w => //; apply/hop; first exact: so.
  by move=> v nv; apply: hm; apply/hop => //; case: nv.
case: ifP => [/eqP [s1]|_].
  have [d e hd] := gray_min uel ael (congr1 S s1) (be := be) (hom := false) (n := n) 15 erefl wL w2 n0 (hM s1) L0.
  by exists d => //; apply: tr.
have [d e hd] := words_min (qwt n) wL w2 fr L0 uel ael.
exists d; last exact: tr.
congr Some; apply: (foldl_minn_start e); by have [[w _ <-] _] := hd; apply: qwt_le_n.
Qed.

Lemma q_exact_ok be (el : vec) (c : qcode F) kd L G : q_ok c -> uniq (0 :: el) -> (forall y, y \in 0 :: el) ->
  (size el = 1%N -> (N.of_nat (q_n c + q_n c) < Pack.first_modulus be)%num) -> q_dimension c <> 0%N ->
  (forall d, kd = Some d -> exists2 m, d = Dist m & is_qdist (q_n c) (q_mat c) m) ->
  get_logical_ops c = Some L -> logical_basis (q_n c) (q_dimension c) (q_mat c) L -> q_get_gauge_ops c = Some G ->
  wf (q_n c + q_n c) G ->
  (forall v, span (q_n c + q_n c) ((get_stabilizer_ops c false true).1 ++ G) v <-> span (q_n c + q_n c) (q_mat c) v) ->
  exists2 d, q_exact be (0 :: el) c kd = Some (Dist d) & is_qdist (q_n c) (q_mat c) d.
Proof.
move=> ok uel ael hM k0 hk eL lb eG wG hs; rewrite /q_exact.
have -> : (q_dimension c == 0%N) = false by apply/eqP.
case ek: kd hk => [d|] hk; first by have [m -> hm] := hk _ erefl; exists m.
by have [d -> hd] := q_search_ok ok uel ael hM k0 eL lb eG wG hs; exists d.
Qed.

Lemma q_exact_stab be (el : vec) (c : qcode F) kd : q_ok c -> q_sub c = false -> uniq (0 :: el) -> (forall y, y \in 0 :: el) ->
  (size el = 1%N -> (N.of_nat (q_n c + q_n c) < Pack.first_modulus be)%num) -> q_dimension c <> 0%N ->
  (forall d, kd = Some d -> exists2 m, d = Dist m & is_qdist (q_n c) (q_mat c) m) ->
  exists2 d, q_exact be (0 :: el) c kd = Some (Dist d) & is_qdist (q_n c) (q_mat c) d.
Proof.
move=> ok ns uel ael hM k0 hk; have [wA hcm _ _ _] := ok; have [L [eL lb]] := stab_logical_ops ok ns.
apply: (q_exact_ok (L := L) (G := [::])) => //; first by rewrite /q_get_gauge_ops ns.
move=> v; rewrite cats0; have [_ e _ _ _] := stab_ops_ok false true ok.
by rewrite !spanP e (comm_center wA (hcm ns)).
Qed.
End Proofs.
