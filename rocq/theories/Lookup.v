(* Lookup decoder: model of qldpc/decoders.py:140-205. *)
From mathcomp Require Import all_ssreflect all_algebra zify.
From Verif Require Import LinAlg RowReduce Classical ClassicalProofs Symplectic Quantum QuantumProofs.
Set Implicit Arguments.
Unset Strict Implicit.
Unset Printing Implicit Defensive.
Import GRing.Theory.
Local Open Scope ring_scope.

(* ============================================================================== model *)
(* itertools.product(s, repeat=k) and itertools.combinations(s, k) (external) *)
Fixpoint iproduct (T : Type) (s : seq T) (k : nat) : seq (seq T) :=
  if k is k'.+1 then flatten [seq [seq x :: t | t <- iproduct s k'] | x <- s] else [:: [::]].
Fixpoint combinations (T : Type) (s : seq T) (k : nat) : seq (seq T) :=
  match k, s with
  | 0, _ => [:: [::]]
  | _, [::] => [::]
  | k'.+1, x :: s' => [seq x :: c | c <- combinations s' k'] ++ combinations s' k
  end.
(* python dictionaries (external): the list of insertions; the last one for a key counts *)
Definition dget (K : eqType) (V : Type) (d : seq (K * V)) (k : K) (dflt : V) : V := last dflt [seq e.2 | e <- d & e.1 == k].

Section Lookup.
Variables (F : fieldType) (el : seq F).  (* el: range(field.order), the elements of the field, 0 first *)
Notation vec := (seq F).
Notation mat := (seq (seq F)).

(* decoders.py:187-188: the errors of one site; rep is 2 for symplectic=True and 1 otherwise *)
Definition local_errors (rep : nat) : seq vec := behead (iproduct el rep).
(* decoders.py:196-198: `code_error` with the given errors at the given sites *)
Definition code_error (rep n : nat) (sites : seq nat) (errs : seq vec) : vec :=
  flatten [seq [seq (if j \in sites then nth 0 (nth [::] errs (index j sites)) i else 0) | j <- iota 0 n] | i <- iota 0 rep].
(* decoders.py:193-198: the errors of weight w, in the order of the loops *)
Definition errors (rep n w : nat) : seq vec :=
  flatten [seq [seq code_error rep n sites errs | errs <- iproduct (local_errors rep) w] | sites <- combinations (iota 0 n) w].
(* decoders.py:190-200: the table; H is the matrix that is multiplied to errors (rep * n columns) *)
Definition table (rep n : nat) (H : mat) (max_weight : nat) : seq (vec * vec) :=
  flatten [seq [seq (mulmv H e, e) | e <- errors rep n w] | w <- rev (iota 1 max_weight)].
(* decoders.py:202-205: decode *)
Definition lookup_decode (rep n : nat) (H : mat) (max_weight : nat) (s : vec) : vec :=
  dget (table rep n H max_weight) s (vzero F (rep * n)).
(* decoders.py:162-170: the decoder of a classical code, and (symplectic=True) of a quantum code with parity check matrix H *)
Definition lookup_classical (n : nat) (H : mat) (max_weight : nat) (s : vec) : vec := lookup_decode 1 n H max_weight s.
Definition lookup_symplectic (n : nat) (H : mat) (max_weight : nat) (s : vec) : vec :=
  lookup_decode 2 n (symplectic_conjugate n H) max_weight s.

(* ====================================================================== specification *)
(* el lists the field, zero first *)
Definition field_list : Prop := [/\ uniq el, forall x, x \in el & nth 0 el 0 = 0].
(* number of sites at which an error acts *)
Definition acts (rep n : nat) (e : vec) (j : nat) : bool := has (fun i => nth 0 e (i * n + j) != 0) (iota 0 rep).
Definition swt (rep n : nat) (e : vec) : nat := count (acts rep n e) (iota 0 n).

(* ============================================================================= proofs *)
Lemma mem_iproduct (T : eqType) (s : seq T) k t : (t \in iproduct s k) = (size t == k) && all (mem s) t.
Proof.
elim: k t => [|k IH] t /=; first by rewrite inE; case: t.
apply/flatten_mapP/andP => [[x xs /mapP [u]] | [/eqP st]].
  by rewrite IH => /andP [/eqP su al] -> /=; rewrite su eqxx xs.
case: t st => // x t [st] /= /andP [xs al]; exists x => //; apply/mapP; exists t => //.
by rewrite IH st eqxx.
Qed.

Lemma uniq_iproduct (T : eqType) (s : seq T) k : uniq s -> uniq (iproduct s k).
Proof.
move=> us; elim: k => [|k IH] //=; move: (iproduct s k) IH => P uP.
elim: s us => [|x s IHs] //= /andP [xs us].
rewrite cat_uniq map_inj_uniq ?uP //=; last by move=> a b [].
rewrite (IHs us) andbT; apply/hasPn => t /flatten_mapP [y ys /mapP [u _ ->]].
by apply/negP => /mapP [v _ [e _]]; rewrite -e ys in xs.
Qed.

Lemma mem_combinations (T : eqType) (s : seq T) k c : (c \in combinations s k) = subseq c s && (size c == k).
Proof.
elim: s k c => [|x s IH] [|k] c /=.
- by rewrite inE; case: c.
- by case: c.
- by rewrite inE; case: c => // y c /=; rewrite andbF.
rewrite mem_cat IH; case: c => [|y c] /=.
  by rewrite andbF orbF; apply/negP => /mapP [].
have [-> | ne] := y =P x.
  rewrite (mem_map (f := cons x)) ?IH; last by move=> a b [].
  rewrite eqSS -andb_orl; congr andb; case h: (subseq c s) => //=.
  by apply/negP => h'; move: h; rewrite (subseq_trans (subseq_cons c x) h').
by case: mapP => [[u _ [e _]] | _ //]; case: ne.
Qed.

Lemma iproduct_head (x : F) s k : iproduct (x :: s) k = nseq k x :: behead (iproduct (x :: s) k).
Proof. by elim: k => [|k] //=; case: (iproduct (x :: s) k) => [|p P] //= [->]. Qed.

Lemma mem_local rep (v : vec) : field_list -> (v \in local_errors rep) = (size v == rep) && vany v.
Proof.
case=> uel ael e0; rewrite /local_errors.
have [x [s es]] : exists x s, el = x :: s.
  by move: (ael 0); case: (el) => // x s _; exists x, s.
rewrite es /= in e0; rewrite es e0; have := uniq_iproduct rep uel; rewrite es e0.
have : (v \in iproduct (0 :: s) rep) = (size v == rep).
  rewrite mem_iproduct; case: (_ == _) => //=; apply/allP => y _; have := ael y; by rewrite es e0.
rewrite iproduct_head /= inE => h /andP [nz _]; rewrite -h.
case: eqP => [-> | ne] /=.
  rewrite (negbTE nz); apply/esym/negbTE/hasPn => y; rewrite mem_nseq => /andP [_ /eqP ->]; by rewrite eqxx.
case m: (v \in _) => //=; apply/esym/negPn/negP => nv; apply: ne.
move: h; rewrite m orbT => /esym /eqP sv; apply: (@eq_from_nth _ 0); rewrite ?size_nseq // => i hi.
rewrite nth_nseq -sv hi; apply/eqP; apply/negPn; move: nv; rewrite /vany => /hasPn /(_ (nth 0 v i)); apply; exact: mem_nth.
Qed.

Lemma size_code_error rep n sites errs : size (code_error rep n sites errs) = (rep * n)%N.
Proof.
rewrite /code_error size_flatten /shape -map_comp sumnE big_map.
rewrite (eq_bigr (fun=> n)); last by move=> i _; rewrite /= size_map size_iota.
by rewrite big_const_seq count_predT size_iota iter_addn addn0 mulnC.
Qed.

Lemma nth_rows (f : nat -> nat -> F) rep n i j : (i < rep)%N -> (j < n)%N ->
  nth 0 (flatten [seq [seq f i j | j <- iota 0 n] | i <- iota 0 rep]) (i * n + j) = f i j.
Proof.
move=> hi hj; have -> : iota 0 rep = iota 0 (i + (rep - i)) by rewrite subnKC // ltnW.
rewrite iotaD map_cat flatten_cat nth_cat.
have sz m : size (flatten [seq [seq f i j | j <- iota 0 n] | i <- iota 0 m]) = (m * n)%N.
  rewrite size_flatten /shape -map_comp sumnE big_map (eq_bigr (fun=> n)); last by move=> k _; rewrite /= size_map size_iota.
  by rewrite big_const_seq count_predT size_iota iter_addn addn0 mulnC.
rewrite sz ltnNge leq_addr /= addKn add0n.
have -> : (rep - i = (rep - i.+1).+1)%N by lia.
by rewrite /= nth_cat size_map size_iota hj (nth_map 0%N) ?size_iota // nth_iota.
Qed.

Lemma nth_code_error rep n sites errs i j : (i < rep)%N -> (j < n)%N ->
  nth 0 (code_error rep n sites errs) (i * n + j) = if j \in sites then nth 0 (nth [::] errs (index j sites)) i else 0.
Proof. exact: (nth_rows (fun i j => if j \in sites then nth 0 (nth [::] errs (index j sites)) i else 0)). Qed.

Lemma ext_rows rep n (u v : vec) : size u = (rep * n)%N -> size v = (rep * n)%N ->
  (forall i j, (i < rep)%N -> (j < n)%N -> nth 0 u (i * n + j) = nth 0 v (i * n + j)) -> u = v.
Proof.
move=> su sv h; apply: (@eq_from_nth _ 0); rewrite su // => k hk.
have n0 : (0 < n)%N by case: n {h} su sv hk => //; rewrite muln0.
by rewrite (divn_eq k n); apply: h; [rewrite ltn_divLR | rewrite ltn_pmod].
Qed.

Lemma mem_errors rep n w (e : vec) : field_list -> (e \in errors rep n w) = (size e == rep * n)%N && (swt rep n e == w).
Proof.
move=> fl; apply/flatten_mapP/andP => [[sites] | [/eqP se /eqP sw]].
  rewrite mem_combinations => /andP [sub /eqP ss] /mapP [errs]; rewrite mem_iproduct => /andP [/eqP serr /allP al] ->.
  rewrite size_code_error eqxx; split=> //; rewrite -ss /swt.
  have us : uniq sites := subseq_uniq sub (iota_uniq 0 n).
  rewrite -size_filter; apply/eqP/perm_size/uniq_perm => //; first by rewrite filter_uniq ?iota_uniq.
  move=> j; rewrite mem_filter; apply/andP/idP => [[/hasP [i]] | hj].
    rewrite !mem_iota !add0n /= => hi ne hj; move: ne; rewrite nth_code_error //; case: ifP => //; by rewrite eqxx.
  have hjn : (j < n)%N by have := mem_subseq sub hj; rewrite mem_iota add0n.
  split; last by rewrite mem_iota add0n.
  have hi : (index j sites < size errs)%N by rewrite serr -ss index_mem.
  have := al _ (mem_nth [::] hi); rewrite inE /= mem_local // => /andP [/eqP sv /hasP [x /(nthP 0) [i]]].
  rewrite sv => lt <- ne; apply/hasP; exists i; first by rewrite mem_iota.
  by rewrite nth_code_error // hj.
pose sites := [seq j <- iota 0 n | acts rep n e j].
have sub : subseq sites (iota 0 n) := filter_subseq _ _.
pose col j := mkseq (fun i => nth 0 e (i * n + j)) rep.
exists sites; first by rewrite mem_combinations sub size_filter -/(swt rep n e) sw eqxx.
apply/mapP; exists (map col sites).
  rewrite mem_iproduct size_map size_filter -/(swt rep n e) sw eqxx /=; apply/allP => v /mapP [j].
  rewrite mem_filter => /andP [/hasP [i]]; rewrite mem_iota add0n /= => hi ne _ ->; rewrite /= mem_local // size_mkseq eqxx.
  by apply/hasP; exists (nth 0 e (i * n + j)) => //; apply/mapP; exists i; rewrite // mem_iota.
apply: (@ext_rows rep n) => //; first by rewrite size_code_error.
move=> i j hi hj; rewrite nth_code_error //; case: ifP => hs.
  by rewrite (nth_map 0%N) ?index_mem // nth_index // nth_mkseq.
apply/eqP; apply: contraFT hs => ne; rewrite mem_filter mem_iota add0n hj /= andbT; apply/hasP; exists i => //.
by rewrite mem_iota.
Qed.

Lemma dget_cat (K : eqType) (V : Type) (d1 d2 : seq (K * V)) k x : dget (d1 ++ d2) k x = dget d2 k (dget d1 k x).
Proof. by rewrite /dget filter_cat map_cat last_cat. Qed.

Lemma tableS rep n H m : table rep n H m.+1 = [seq (mulmv H e, e) | e <- errors rep n m.+1] ++ table rep n H m.
Proof.
have -> : table rep n H m.+1 = table rep n H (m + 1) by rewrite addn1.
by rewrite /table iotaD rev_cat map_cat flatten_cat /= cats0 add1n.
Qed.

Lemma dget_block (H : mat) (es : seq vec) s x :
  let r := dget [seq (mulmv H e, e) | e <- es] s x in
  (r = x /\ forall e, e \in es -> mulmv H e <> s) \/ (r \in es /\ mulmv H r = s).
Proof.
rewrite /= /dget filter_map -map_comp /=.
rewrite (eq_map (f2 := id)) // map_id.
case/lastP e: [seq e <- es | _] => [|l y].
  left; split=> // z hz ez; have : z \in [::] by rewrite -e mem_filter hz andbT /= ez.
  by [].
right; have : y \in rcons l y by rewrite mem_rcons mem_head.
by rewrite last_rcons -e mem_filter => /andP [/eqP].
Qed.

(* the lookup returns an error of least positive weight, or the default if there is none *)
Lemma dget_table rep n (H : mat) m s x : field_list ->
  let r := dget (table rep n H m) s x in
  (r = x /\ forall e, size e = (rep * n)%N -> (0 < swt rep n e <= m)%N -> mulmv H e <> s) \/
  [/\ size r = (rep * n)%N, (0 < swt rep n r <= m)%N, mulmv H r = s &
      forall e, size e = (rep * n)%N -> (0 < swt rep n e)%N -> mulmv H e = s -> (swt rep n r <= swt rep n e)%N].
Proof.
move=> fl; elim: m x => [|m IH] x.
  by left; split=> // e _; case: (swt _ _ _) => //; rewrite ltn0.
rewrite /= tableS dget_cat.
set x' := dget _ s x; have := IH x'; set r := dget _ s x' => -[[-> no] | [sr wr er mr]]; last first.
  by right; split=> //; move: wr; clear; lia.
have := dget_block H (errors rep n m.+1) s x; rewrite -/x' => -[[-> no'] | []].
  left; split=> // e se we; have [le | gt] := leqP (swt rep n e) m; first by apply: no; lia.
  by apply: no'; rewrite mem_errors // se eqxx /=; lia.
rewrite mem_errors // => /andP [/eqP sx /eqP wx] ex; right; split=> //; first by rewrite wx ltnS leqnn.
move=> e se we ee; rewrite wx leqNgt; apply/negP => lt; apply: (no e) => //; lia.
Qed.

Lemma swt0 rep n (e : vec) : size e = (rep * n)%N -> swt rep n e = 0%N <-> e = vzero F (rep * n).
Proof.
move=> se; split=> [/eqP h | ->].
  apply: (@ext_rows rep n); rewrite ?size_nseq // => i j hi hj; rewrite nth_vzero; apply/eqP.
  move: h; rewrite /swt -leqn0 leqNgt -has_count => /hasPn /(_ j); rewrite mem_iota add0n => /(_ hj) /hasPn /(_ i).
  by rewrite mem_iota add0n => /(_ hi) /negPn.
apply/eqP; rewrite -leqn0 leqNgt -has_count; apply/hasPn => j _; apply/hasPn => i _; by rewrite nth_vzero eqxx.
Qed.

Lemma vzero_map (H : mat) : vzero F (size H) = [seq 0 | _ <- H].
Proof. by elim: H => //= r H; rewrite /vzero /= => ->. Qed.

Lemma mulmv0 n (H : mat) : wf n H -> mulmv H (vzero F n) = vzero F (size H).
Proof.
move=> /wfP wH; rewrite /mulmv vzero_map; apply/eq_in_map => r hr.
rewrite (@dotE _ n) ?size_nseq ?wH // big1 // => k _; by rewrite nth_nseq ltn_ord mulr0.
Qed.

Lemma mulmv_sub n (H : mat) u v : wf n H -> size u = n -> size v = n ->
  mulmv H (vsub u v) = vzero F (size H) <-> mulmv H u = mulmv H v.
Proof.
move=> wH su sv; have sd : size (vsub u v) = n by rewrite size_vsub ?su ?sv.
have key r : r \in H -> dot r (vsub u v) = dot r u - dot r v.
  move/wfP: wH => wH /wH sr; rewrite !(@dotE _ n) // -sumrB; apply: eq_bigr => k _.
  by rewrite nth_vsub ?su ?sv // mulrBr.
rewrite /mulmv vzero_map; split=> [/eq_in_map h | /eq_in_map h]; apply/eq_in_map => r hr.
  by apply/eqP; rewrite -subr_eq0 -key // h.
by rewrite key // h // subrr.
Qed.

Lemma swt_sub rep n (u v : vec) : size u = size v -> (swt rep n (vsub u v) <= swt rep n u + swt rep n v)%N.
Proof.
move=> s; rewrite /swt -count_predUI; apply: leq_trans (leq_addr _ _); apply: sub_count => j /hasP [i hi].
rewrite nth_vsub // => ne /=; rewrite /acts; apply/orP.
case e: (nth 0 u (i * n + j) != 0); [left | right]; apply/hasP; exists i => //.
by move/negbFE/eqP: e ne => ->; rewrite sub0r oppr_eq0.
Qed.

(* ----------------------------------------------------------------------- the decoder *)
Theorem lookup_min rep n (H : mat) W s e0 : field_list -> wf (rep * n) H ->
  size e0 = (rep * n)%N -> (swt rep n e0 <= W)%N -> mulmv H e0 = s ->
  (s <> vzero F (size H) \/ forall e, size e = (rep * n)%N -> (0 < swt rep n e <= W)%N -> mulmv H e <> vzero F (size H)) ->
  let r := lookup_decode rep n H W s in
  [/\ size r = (rep * n)%N, mulmv H r = s & forall e, size e = (rep * n)%N -> mulmv H e = s -> (swt rep n r <= swt rep n e)%N].
Proof.
move=> fl wH s0 w0 h0 hs; rewrite /lookup_decode; set d := vzero F (rep * n).
have sd : size d = (rep * n)%N by rewrite size_nseq.
have := dget_table rep n H W s d fl; set r := dget _ _ _ => /= -[[-> no] | [sr wr er mr]].
  have z : swt rep n e0 = 0%N.
    by apply/eqP; rewrite -leqn0 leqNgt; apply/negP => lt; apply: (no e0); rewrite ?lt.
  have e : e0 = d by apply/(swt0 s0).
  rewrite -e z; split=> //.
split=> // e se ee; have [gt | le] := ltnP 0 (swt rep n e); first exact: mr.
have z : e = d by apply/(swt0 se); move: le; clear; lia.
have sz : s = vzero F (size H) by rewrite -ee z mulmv0.
by case: hs => [// | /(_ r sr wr)]; rewrite er sz.
Qed.

Theorem lookup_zero rep n (H : mat) W : field_list -> wf (rep * n) H ->
  lookup_decode rep n H W (vzero F (size H)) = vzero F (rep * n) <->
  (forall e, size e = (rep * n)%N -> (0 < swt rep n e <= W)%N -> mulmv H e <> vzero F (size H)).
Proof.
move=> fl wH; rewrite /lookup_decode; have := dget_table rep n H W (vzero F (size H)) (vzero F (rep * n)) fl.
case=> [[-> no] | [sr wr er mr]]; first by [].
split=> [e | /(_ _ sr wr)]; last by rewrite er.
by move: wr; rewrite e (proj2 (@swt0 rep n (vzero F (rep * n)) (size_nseq _ _)) erefl).
Qed.

(* errors that are not tabulated are not corrected *)
Theorem lookup_none rep n (H : mat) W s : field_list ->
  (forall e, size e = (rep * n)%N -> (swt rep n e <= W)%N -> mulmv H e <> s) ->
  lookup_decode rep n H W s = vzero F (rep * n).
Proof.
move=> fl no; rewrite /lookup_decode; have := dget_table rep n H W s (vzero F (rep * n)) fl => -[[-> _] // | [sr wr er mr]].
case: (no _ sr _ er); by case/andP: wr.
Qed.

(* the difference of an error and its correction *)
Theorem lookup_diff rep n (H : mat) W d (e : vec) : field_list -> wf (rep * n) H -> W = ((d - 1) %/ 2)%N ->
  size e = (rep * n)%N -> (swt rep n e <= W)%N ->
  let r := lookup_decode rep n H W (mulmv H e) in
  [/\ size r = (rep * n)%N, mulmv H r = mulmv H e & r = e \/ (swt rep n (vsub e r) < d)%N].
Proof.
move=> fl wH eW se we; rewrite /lookup_decode.
have := dget_table rep n H W (mulmv H e) (vzero F (rep * n)) fl => /= -[[-> no] | [sr wr er _]].
  have z : e = vzero F (rep * n).
    apply/(swt0 se)/eqP; rewrite -leqn0 leqNgt; apply/negP => lt; apply: (no e); rewrite ?lt //.
  by rewrite -z; split=> //; left.
split=> //; right; apply: (leq_ltn_trans (swt_sub _ _ _)); first by rewrite se sr.
move: wr we; rewrite eW; clear; lia.
Qed.

Lemma swt1 n (e : vec) : size e = n -> swt 1 n e = hwt e.
Proof.
move=> se; rewrite /swt /hwt -[in RHS](mkseq_nth 0 e) se /mkseq count_map; apply: eq_count => j.
by rewrite /= /acts /= mul0n add0n orbF.
Qed.

(* number of qudits on which a Pauli string [x|z] acts *)
Definition qwt (n : nat) (e : vec) : nat := count (fun j => (nth 0 e j != 0) || (nth 0 e (n + j) != 0)) (iota 0 n).
Lemma swt2 n (e : vec) : swt 2 n e = qwt n e.
Proof. by apply: eq_count => j; rewrite /acts /= mul0n add0n mul1n orbF. Qed.

Lemma mulmv_word n (H : mat) w : wf n H -> size w = n -> mulmv H w = vzero F (size H) <-> is_word n H w.
Proof.
move=> /wfP wH sw; rewrite /mulmv vzero_map; split=> [/eq_in_map h | [_ h]].
  by split=> // r hr; have /= := h r hr; rewrite (@dotE _ n) // wH.
apply/eq_in_map => r hr; rewrite (dotE (wH r hr) sw); exact: h.
Qed.

Theorem lookup_corrects n (H : mat) d (e : vec) : field_list -> wf n H -> is_dist n H d ->
  size e = n -> (hwt e <= (d - 1) %/ 2)%N -> lookup_classical n H ((d - 1) %/ 2) (mulmv H e) = e.
Proof.
move=> fl wH [_ dist] se we.
rewrite /lookup_classical; have [||| sr hr [-> // | lt]] := @lookup_diff 1 n H ((d - 1) %/ 2) d e fl _ erefl; rewrite ?mul1n ?swt1 //.
set r := lookup_decode _ _ _ _ _ in sr hr lt *; rewrite mul1n in sr.
have sd : size (vsub e r) = n by rewrite size_vsub ?se ?sr.
have /(mulmv_word wH sd) hw : mulmv H (vsub e r) = vzero F (size H) by apply/(mulmv_sub wH).
rewrite swt1 // in lt; apply/esym/(@eq_from_nth _ 0) => [|j hj]; rewrite ?se ?sr //.
apply/eqP; rewrite -subr_eq0 -nth_vsub ?se ?sr //; apply/negPn/negP => ne.
by move: lt; rewrite ltnNge (dist _ hw) //; exists j; apply/eqP.
Qed.

Lemma mulmv_conj n (H : mat) e : wf (n + n) H -> size e = (n + n)%N ->
  mulmv (symplectic_conjugate n H) e = vzero F (size H) <-> forall r, r \in H -> symp n r e = 0.
Proof.
move=> /wfP wH se; rewrite /mulmv -map_comp vzero_map.
have key r : r \in H -> dot (conj_row n r) e = symp n r e.
  move=> hr; have sr := wH r hr; have sc := size_conj_row sr.
  have := dot_rv sc se; rewrite rv_conj_row // symp_rv // => /matrixP /(_ 0 0).
  by rewrite !mxE eqxx !mulr1n.
by split=> [/eq_in_map h r hr | h]; [rewrite -key //; apply: h | apply/eq_in_map => r hr /=; rewrite key // h].
Qed.

Theorem lookup_corrects_symplectic n (H : mat) d (e : vec) : field_list -> wf (n + n) H ->
  (forall v, size v = (n + n)%N -> (forall r, r \in H -> symp n r v = 0) -> ~ span (n + n) H v -> (d <= qwt n v)%N) ->
  size e = (n + n)%N -> (qwt n e <= (d - 1) %/ 2)%N ->
  let r := lookup_symplectic n H ((d - 1) %/ 2) (mulmv (symplectic_conjugate n H) e) in
  size r = (n + n)%N /\ span (n + n) H (vsub e r).
Proof.
move=> fl wH dist se we; have nn : (2 * n = n + n)%N by rewrite mul2n addnn.
have wC : wf (n + n) (symplectic_conjugate n H) by exact: wf_conj.
have [||| sr hr h] := @lookup_diff 2 n (symplectic_conjugate n H) ((d - 1) %/ 2) d e fl _ erefl; rewrite ?nn ?swt2 //.
rewrite /lookup_symplectic; set r := lookup_decode _ _ _ _ _ in sr hr h *; rewrite nn in sr.
have sd : size (vsub e r) = (n + n)%N by rewrite size_vsub ?se ?sr.
split=> //; case: h => [re | lt].
  rewrite re; apply/spanP; split; first by rewrite size_vsub.
  by rewrite rv_sub // subrr sub0mx.
apply/spanP; split=> //; apply/negPn/negP => nsp.
have /(mulmv_conj wH sd) hc : mulmv (symplectic_conjugate n H) (vsub e r) = vzero F (size H).
  by have := proj2 (mulmv_sub wC se sr) (esym hr); rewrite size_map.
move: lt; rewrite swt2 ltnNge dist // => /spanP [_ h]; by rewrite h in nsp.
Qed.

(* ============================================================================== model *)
(* decoders.py:203-205: decode returns the array stored in the table (a copy only if there is none).  A caller that writes v into
   the array returned for syndrome s changes the table as follows; arrays of different syndromes are different objects *)
Definition overwrite (t : seq (vec * vec)) (sv : vec * vec) : seq (vec * vec) :=
  [seq (e.1, if e.1 == sv.1 then sv.2 else e.2) | e <- t].
(* decode(s) after a history of decode calls and writes to their results *)
Definition decode_after (t : seq (vec * vec)) (hist : seq (vec * vec)) (s dflt : vec) : vec := dget (foldl overwrite t hist) s dflt.

(* ============================================================================= proofs *)
Lemma dget_overwrite t sv s dflt : sv.1 <> s \/ s \notin map fst t -> dget (overwrite t sv) s dflt = dget t s dflt.
Proof.
move=> h; rewrite /dget; elim: t dflt h => //= e t IH dflt h.
have h' : sv.1 <> s \/ s \notin map fst t by case: h; [left | rewrite inE => /norP []; right].
case: eqP => [es | ne] /=; last exact: IH.
case: h => [ne | ]; last by rewrite inE es eqxx.
by rewrite es; case: eqP => [e1 | _]; [case: ne | exact: IH].
Qed.

Theorem decode_after_ok t hist s dflt : (forall sv, sv \in hist -> sv.1 <> s) \/ s \notin map fst t ->
  decode_after t hist s dflt = dget t s dflt.
Proof.
rewrite /decode_after; elim: hist t => //= sv hist IH t h; rewrite IH.
  apply: dget_overwrite; case: h => h; [by left; apply: h; rewrite mem_head | by right].
case: h => h; [left=> x hx; apply: h; by rewrite inE hx orbT | right].
by rewrite /overwrite -map_comp.
Qed.
End Lookup.
