(* Integer programming, block and direct decoders: model of qldpc/decoders.py:370-513. *)
From mathcomp Require Import all_ssreflect all_algebra zify.
From Verif Require Import LinAlg RowReduce Classical.
Set Implicit Arguments.
Unset Strict Implicit.
Unset Printing Implicit Defensive.
Import GRing.Theory.

(* ============================================================================== model *)
(* inner product of integer vectors with non-negative entries *)
Definition ndot (u v : seq nat) : nat := sumn [seq p.1 * p.2 | p <- zip u v].

(* decoders.py:430-434: max_power_of_q, for max_zero = t - s.  None models int(nan) (a ValueError) for negative max_zero; for
   q = 2 the bit length of -1 is 1.  Simplification: the quotient of logarithms, computed by the code with floating point numbers,
   is rounded down exactly *)
Definition max_power (q t s : nat) : option nat :=
  if t < s then (if q == 2 then Some 0 else None)
  else Some (trunc_log q (t - s)).

(* decoders.py:412-447: the constraint of one check: check @ x == s + sum_j q^j s_j with boolean variables s_j *)
Definition slack (q : nat) (sl : seq bool) : nat := sumn [seq q ^ j.+1 * nth false sl j | j <- iota 0 (size sl)].
Definition row_constraint (q : nat) (check : seq nat) (s : nat) (x : seq nat) : Prop :=
  exists m sl, [/\ max_power q (sumn check * (q - 1)) s = Some m, size sl = m & ndot check x = s + slack q sl].

(* decoders.py:376-391: the variables; the matrix and the syndrome have been reduced modulo q *)
Definition feasible (q : nat) (H : seq (seq nat)) (s : seq nat) (n : nat) (x : seq nat) : Prop :=
  [/\ size x = n, all (fun v => v < q) x & forall i, i < size H -> row_constraint q (nth [::] H i) (nth 0 s i) x].
(* decoders.py:378-391: possible values of the objective: the sum of the variables for q = 2; otherwise the sum of boolean flags
   with q * flag >= variable *)
Definition objective (q : nat) (x : seq nat) (v : nat) : Prop :=
  if q == 2 then v = sumn x
  else exists fl : seq bool, [/\ size fl = size x, forall i, i < size x -> nth 0 x i <= q * nth false fl i & v = count id fl].
(* an optimal solution of the integer program, as returned by the solver *)
Definition ilp_optimal (q : nat) (H : seq (seq nat)) (s : seq nat) (n : nat) (x : seq nat) : Prop :=
  exists v, [/\ feasible q H s n x, objective q x v &
    forall x' v', feasible q H s n x' -> objective q x' v' -> v <= v'].

(* ====================================================================== specification *)
(* x is a vector over the integers modulo q with syndrome s *)
Definition solves (q : nat) (H : seq (seq nat)) (s : seq nat) (n : nat) (x : seq nat) : Prop :=
  [/\ size x = n, all (fun v => v < q) x & forall i, i < size H -> ndot (nth [::] H i) x = nth 0 s i %[mod q]].
Definition weight (x : seq nat) : nat := count (fun v => v != 0) x.
Definition reduced (q n : nat) (H : seq (seq nat)) (s : seq nat) : Prop :=
  [/\ all (fun r => (size r == n) && all (fun v => v < q) r) H, size s = size H & all (fun v => v < q) s].

(* ============================================================================= proofs *)
Lemma slack_cons q b sl : slack q (b :: sl) = q * b + q * slack q sl.
Proof.
rewrite /slack /= expn1; congr (_ + _); rewrite -[1]/(1 + 0) iotaDl -map_comp.
elim: (iota 0 (size sl)) => [|j js IH] /=; first by rewrite muln0.
by rewrite IH add1n /= expnS mulnDr !mulnA.
Qed.

Lemma slack_dvd q sl : q %| slack q sl.
Proof. by case: sl => [|b sl]; [rewrite dvdn0 | rewrite slack_cons -mulnDr dvdn_mulr]. Qed.

Lemma ndot_bound q r x : size r = size x -> all (fun v => v < q) x -> ndot r x <= sumn r * (q - 1).
Proof.
rewrite /ndot; elim: r x => [|a r IH] [|b x] //= [sz] /andP [hb al].
have := IH x sz al; rewrite mulnDl => h; apply: leq_add h; rewrite leq_mul2l; apply/orP; right; lia.
Qed.

Lemma feasible_solves q H s n x : feasible q H s n x -> solves q H s n x.
Proof.
case=> sx al h; split=> // i hi; have [m [sl [_ _ ->]]] := h i hi.
by rewrite -modnDmr (eqP (slack_dvd q sl)) addn0.
Qed.

(* even numbers are sums of different powers of two *)
Lemma slack2 m t : t < 2 ^ m -> exists2 sl, size sl = m & slack 2 sl = 2 * t.
Proof.
elim: m t => [|m IH] t; first by rewrite expn0 ltnS leqn0 => /eqP ->; exists [::].
rewrite expnS => h; have [|sl ss e] := IH (t %/ 2); first by rewrite ltn_divLR // mulnC.
exists (odd t :: sl); rewrite /= ?ss // slack_cons e.
by rewrite -mulnDr [in RHS](divn_eq t 2) modn2 addnC [t %/ 2 * 2]mulnC.
Qed.

Lemma solves_row q r s x : size r = size x -> 1 < q -> all (fun v => v < q) x -> s < q -> ndot r x = s %[mod q] ->
  q = 2 \/ sumn r * (q - 1) < s + 2 * q -> row_constraint q r s x.
Proof.
move=> sz q1 al hs em hq; have bd := ndot_bound sz al.
have ge : s <= ndot r x.
  by rewrite (divn_eq (ndot r x) q) em modn_small // leq_addl.
have [t et] : exists t, ndot r x = s + q * t.
  by have := divn_eq (ndot r x) q; rewrite em (modn_small hs) => e; exists (ndot r x %/ q); rewrite mulnC addnC.
rewrite /row_constraint /max_power ltnNge (leq_trans ge bd) /=; set T := sumn r * (q - 1) in bd hq *.
exists (trunc_log q (T - s)); case: hq => [q2 | lt].
  rewrite q2 in et *; have tb : t < 2 ^ trunc_log 2 (T - s).
    case: t et => [|t] et; first by rewrite expn_gt0.
    have := @trunc_log_ltn 2 (T - s) isT; rewrite expnS; move: bd; rewrite et; clear; lia.
  have [sl ss e] := slack2 tb; exists sl; split=> //; by rewrite et e.
have tb : q * t < 2 * q by move: bd lt; rewrite et; clear; lia.
have {tb} : t < 2 by move: tb; rewrite mulnC ltn_pmul2r // ltnW.
case: t et => [|[|t]] // et _.
  exists (nseq (trunc_log q (T - s)) false); rewrite size_nseq; split=> //; rewrite et muln0; congr addn.
  by rewrite /slack; elim: (iota 0 _) => //= j js <-; rewrite nth_nseq; case: (_ < _); rewrite muln0.
have tl : 0 < trunc_log q (T - s).
  by apply: trunc_log_max => //; rewrite expn1; move: bd; rewrite et muln1; clear; lia.
exists (true :: nseq (trunc_log q (T - s)).-1 false); rewrite /= size_nseq prednK //; split=> //.
rewrite et slack_cons muln1; congr addn; rewrite -[LHS]addn0; congr addn.
rewrite /slack -[LHS](muln0 q); congr muln.
by elim: (iota 0 _) => //= j js <-; rewrite nth_nseq; case: (_ < _); rewrite muln0.
Qed.

Lemma reducedP q n H s i : reduced q n H s -> i < size H ->
  size (nth [::] H i) = n /\ nth 0 s i < q.
Proof.
case=> /allP aH sz /allP as_ hi; split; first by case/andP: (aH _ (mem_nth [::] hi)) => /eqP.
by apply/as_/mem_nth; rewrite sz.
Qed.

(* the linear program describes exactly the vectors with the right syndrome, if q = 2 or all checks are light *)
Theorem feasible_iff q n H s x : 1 < q -> reduced q n H s ->
  q = 2 \/ (forall i, i < size H -> sumn (nth [::] H i) * (q - 1) < nth 0 s i + 2 * q) ->
  feasible q H s n x <-> solves q H s n x.
Proof.
move=> q1 red hq; split; first exact: feasible_solves.
case=> sx al h; split=> // i hi; have [sr ss] := reducedP red hi.
apply: solves_row => //; [by rewrite sr | exact: h | ].
by case: hq => [-> | lt]; [left | right; apply: lt].
Qed.

Lemma weight_sum x : all (fun v => v < 2) x -> sumn x = weight x.
Proof. by rewrite /weight; elim: x => //= [[|[|v]]] x IH //= /IH ->. Qed.

(* the least value of the objective is the Hamming weight *)
Lemma objective_weight q x : 1 < q -> all (fun v => v < q) x ->
  objective q x (weight x) /\ forall v, objective q x v -> weight x <= v.
Proof.
move=> q1 al; rewrite /objective; case: eqP => [q2 | _].
  by rewrite q2 in al; split=> [|v ->]; rewrite weight_sum.
split=> [|v [fl [sf hf ->]]].
  exists [seq v != 0 | v <- x]; rewrite size_map; split=> //; last by rewrite count_map.
  move=> i hi; rewrite (nth_map 0) //; have /allP /(_ _ (mem_nth 0 hi)) := al.
  by case: (nth 0 x i) => //= v h; rewrite muln1 ltnW.
rewrite /weight; elim: x fl sf hf al => [|a x IH] [|f fl] //= [sf] hf /andP [_ al].
apply: leq_add; last by apply: (IH fl) => // i hi; exact: (hf i.+1).
by have := hf 0 isT; clear; rewrite /=; case: f; case: a => //= a; rewrite muln0.
Qed.

Theorem ilp_exact q n H s x : 1 < q -> reduced q n H s ->
  q = 2 \/ (forall i, i < size H -> sumn (nth [::] H i) * (q - 1) < nth 0 s i + 2 * q) ->
  ilp_optimal q H s n x <->
  solves q H s n x /\ (forall x', solves q H s n x' -> weight x <= weight x').
Proof.
move=> q1 red hq; have fs x' := feasible_iff x' q1 red hq.
split=> [[v [fx ov mn]] | [sx mn]].
  have /fs sx := fx; split=> // x' /[dup] sx' /fs fx'.
  have [_ al _] := sx; have [_ al' _] := sx'.
  have [_ /(_ _ ov) h] := objective_weight q1 al; apply: (leq_trans h).
  by apply: (mn x') => //; have [] := objective_weight q1 al'.
have [_ al _] := sx; exists (weight x); split; [exact/fs | by have [] := objective_weight q1 al |].
move=> x' v' /fs sx' ov'; have [_ al' _] := sx'; apply: (leq_trans (mn _ sx')).
by have [_] := objective_weight q1 al'; apply.
Qed.

(* every optimal solution has the right syndrome *)
Theorem ilp_sound q n H s x : ilp_optimal q H s n x -> solves q H s n x.
Proof. by case=> v [/feasible_solves]. Qed.


(* ============================================================================== model *)
Section Block.
Variables (T : Type).
(* syndrome.reshape(-1, L); None is ValueError *)
Definition chunks (L : nat) (s : seq T) : option (seq (seq T)) :=
  if (L != 0) && (L %| size s) then Some [seq take L (drop (i * L) s) | i <- iota 0 (size s %/ L)] else None.
(* decoders.py:465-471: BlockDecoder.decode; None is an exception of the decoder or of np.concatenate([]) *)
Fixpoint collect (S : Type) (dec : seq T -> option (seq S)) (cs : seq (seq T)) : option (seq S) :=
  if cs is c :: cs' then
    match dec c, collect dec cs' with Some e, Some r => Some (e ++ r) | _, _ => None end
  else Some [::].
Definition block_decode (S : Type) (L : nat) (dec : seq T -> option (seq S)) (s : seq T) : option (seq S) :=
  if chunks L s is Some cs then (if nilp cs then None else collect dec cs) else None.

Lemma chunks_flatten L (ss : seq (seq T)) : L != 0 -> all (fun s => size s == L) ss -> chunks L (flatten ss) = Some ss.
Proof.
move=> L0 al; have sz : size (flatten ss) = size ss * L.
  by elim: ss al => //= s ss IH /andP [/eqP e /IH h]; rewrite size_cat e h mulSn.
rewrite /chunks L0 sz dvdn_mull // mulnK ?lt0n //=; congr Some.
elim: ss al {sz} => //= s ss IH /andP [/eqP e al]; rewrite mul0n drop0 take_size_cat //; congr cons.
rewrite -[RHS]IH // -[1]/(1 + 0) iotaDl -map_comp; apply: eq_map => i /=.
by rewrite add1n mulSn -e addnC -drop_drop drop_size_cat.
Qed.

Lemma collectE (S : Type) (dec : seq T -> option (seq S)) ss es :
  [seq dec s | s <- ss] = [seq Some e | e <- es] -> collect dec ss = Some (flatten es).
Proof. by elim: ss es => [|s ss IH] [|e es] //= [-> /IH ->]. Qed.

Theorem block_decode_flatten (S : Type) L (dec : seq T -> option (seq S)) ss es : L != 0 -> ss <> [::] ->
  all (fun s => size s == L) ss -> [seq dec s | s <- ss] = [seq Some e | e <- es] ->
  block_decode L dec (flatten ss) = Some (flatten es).
Proof. by move=> L0 ne al h; rewrite /block_decode chunks_flatten //; case: ss ne al h => // s ss _ al h; exact: collectE. Qed.

(* every nonempty syndrome whose length is a multiple of L is a list of blocks *)
Lemma blocks_of L (s : seq T) : L != 0 -> L %| size s -> s <> [::] ->
  exists ss, [/\ s = flatten ss, all (fun s => size s == L) ss & ss <> [::]].
Proof.
move=> L0 /dvdnP [k]; elim: k s => [|k IH] s sz ne; first by move: sz ne; case: s.
have st : size (take L s) = L by rewrite size_takel // sz mulSn leq_addr.
have sd : size (drop L s) = k * L by rewrite size_drop sz mulSn addnC addnK.
case: k IH sd sz => [|k] IH sd sz.
  by exists [:: s]; rewrite /= cats0 sz mul1n eqxx.
have [|ss [e al _]] := IH _ sd; first by move: sd; case: (drop L s) => //=; rewrite mulSn; case: (L) L0.
by exists (take L s :: ss); rewrite /= -e cat_take_drop st eqxx al.
Qed.
End Block.

Section Linear.
Variable F : fieldType.
Notation vec := (seq F).
Notation mat := (seq (seq F)).
Local Open Scope ring_scope.

(* decoders.py:499-513: DirectDecoder.from_indirect for a matrix over a field; None is an exception of the decoder *)
Definition direct_decode (H : mat) (dec : vec -> option vec) (w : vec) : option vec := omap (vsub w) (dec (mulmv H w)).

Lemma mulmv_bdiag n p (A B : mat) u v : wf n A -> wf p B -> size u = n -> size v = p ->
  mulmv (bdiag n p A B) (u ++ v) = mulmv A u ++ mulmv B v.
Proof.
move=> /wfP wA /wfP wB su sv; rewrite /mulmv /bdiag map_cat -!map_comp; congr cat; apply/eq_in_map => r hr /=.
  have sr := wA r hr; rewrite (@dotE _ (n + p)) ?size_cat ?size_nseq ?sr ?su ?sv // (dotE sr su) big_split_ord /=.
  rewrite [X in _ + X]big1 ?addr0 => [|k _]; last by rewrite nth_cat sr ltnNge leq_addr /= nth_nseq if_same mul0r.
  by apply: eq_bigr => k _; rewrite !nth_cat sr su ltn_ord.
have sr := wB r hr; rewrite (@dotE _ (n + p)) ?size_cat ?size_nseq ?sr ?su ?sv // (dotE sr sv) big_split_ord /=.
rewrite big1 ?add0r => [|k _]; last by rewrite nth_cat size_nseq ltn_ord nth_nseq if_same mul0r.
by apply: eq_bigr => k _; rewrite !nth_cat size_nseq su !ltnNge leq_addr /= addKn.
Qed.

Lemma mulmv_blocks n (H : mat) (es : seq vec) : wf n H -> all (fun e => size e == n) es ->
  mulmv (block_diag (nseq (size es) (n, H))) (flatten es) = flatten [seq mulmv H e | e <- es].
Proof.
move=> wH; elim: es => //= e es IH /andP [/eqP se al].
have sf : size (flatten es) = sumn [seq p.1 | p <- nseq (size es) (n, H)].
  by elim: es al {IH} => //= x es IH /andP [/eqP sx /IH h]; rewrite size_cat sx h.
rewrite mulmv_bdiag ?IH //; elim: (size es) => //= k IHk; exact: wf_bdiag.
Qed.

(* a block decoder decodes the stacked code whenever the decoder of one block decodes the blocks *)
Theorem block_decode_stack n (H : mat) (dec : vec -> option vec) ss : H <> [::] -> wf n H -> ss <> [::] ->
  all (fun s => size s == size H) ss ->
  (forall s, s \in ss -> exists2 e, dec s = Some e & size e = n /\ mulmv H e = s) ->
  exists e, [/\ block_decode (size H) dec (flatten ss) = Some e, size e = (size ss * n)%N &
    mulmv (block_diag (nseq (size ss) (n, H))) e = flatten ss].
Proof.
move=> H0 wH ne al hd.
have [es [e1 e2 e3]] : exists es, [/\ [seq dec s | s <- ss] = [seq Some e | e <- es],
    all (fun e => size e == n) es & [seq mulmv H e | e <- es] = ss].
  elim: ss hd {ne al} => [|s ss IH] hd; first by exists [::].
  have [|es [h1 h2 h3]] := IH; first by move=> t ht; apply: hd; rewrite inE ht orbT.
  have [e h4 [h5 h6]] := hd s (mem_head _ _).
  by exists (e :: es); rewrite /= h1 h2 h3 h4 h5 h6 eqxx.
have se : size es = size ss by rewrite -e3 size_map.
exists (flatten es); split.
- by apply: block_decode_flatten => //; case: (H) H0.
- by rewrite -se; elim: es e2 {e1 e3 se} => //= e es IH /andP [/eqP h /IH h']; rewrite size_cat h h' mulSn.
by rewrite -se mulmv_blocks // e3.
Qed.

Theorem direct_decode_word n (H : mat) (dec : vec -> option vec) w e : wf n H -> size w = n ->
  dec (mulmv H w) = Some e -> size e = n -> mulmv H e = mulmv H w ->
  exists2 r, direct_decode H dec w = Some r & is_word n H r /\ vsub w r = e.
Proof.
move=> /wfP wH sw hd se he; exists (vsub w e); first by rewrite /direct_decode hd.
have sr : size (vsub w e) = n by rewrite size_vsub ?sw ?se.
split; last first.
  apply: (@eq_from_nth _ 0) => [|i hi]; first by rewrite size_vsub ?sr ?se.
  by rewrite nth_vsub ?sr // nth_vsub ?sw ?se // opprB addrC subrK.
split=> // r hr; have := eq_in_map (fun r => dot r e) (fun r => dot r w) H; rewrite -/(mulmv _ _) => [[_ /(_ he) h]].
have := h r hr; rewrite (dotE (wH r hr) se) (dotE (wH r hr) sw) => h'.
transitivity (\sum_(k < n) (nth 0 r k * nth 0 w k - nth 0 r k * nth 0 e k)).
  by apply: eq_bigr => k _; rewrite nth_vsub ?sw ?se // mulrBr.
by rewrite sumrB h' subrr.
Qed.
End Linear.

Section Integer.
Local Open Scope ring_scope.
Notation vec := (seq int).
Notation mat := (seq (seq int)).
(* decoders.py:502-506: DirectDecoder.from_indirect for an array of integers; % 2 of numpy is never negative *)
Definition direct_decode_int (H : mat) (dec : vec -> option vec) (w : vec) : option vec :=
  omap (fun e => [seq (x %% 2)%Z | x <- vsub w e]) (dec [seq (x %% 2)%Z | x <- mulmv H w]).

Theorem direct_decode_int_word n (H : mat) (dec : vec -> option vec) w e : wf n H -> size w = n ->
  dec [seq (x %% 2)%Z | x <- mulmv H w] = Some e -> size e = n ->
  [seq (x %% 2)%Z | x <- mulmv H e] = [seq (x %% 2)%Z | x <- mulmv H w] ->
  exists r, [/\ direct_decode_int H dec w = Some r, size r = n, all (fun x => (x == 0) || (x == 1)) r &
    forall h, h \in H -> (2 %| \sum_(j < n) ((nth 0 h j : int) * nth 0 r j))%Z].
Proof.
move=> /wfP wH sw hd se he.
have sr : size (vsub w e) = n by rewrite size_vsub ?sw ?se.
exists [seq (x %% 2)%Z | x <- vsub w e]; split; [by rewrite /direct_decode_int hd | by rewrite size_map | |].
  by apply/allP => x /mapP [y _ ->]; lia.
move=> h hh.
have em : (dot h e = dot h w %[mod 2])%Z.
  have := congr1 (fun l => nth 0 l (index h H)) he.
  by rewrite /= !(nth_map 0) ?size_map ?index_mem // !(nth_map [::]) ?index_mem // nth_index.
have sh := wH h hh; rewrite (dotE sh se) (dotE sh sw) in em; move/eqP: em; rewrite eq_sym eqz_mod_dvd => /dvdzP [k ek].
apply/dvdzP; exists (k - \sum_(j < n) nth 0 h j * ((nth 0 w j - nth 0 e j) %/ 2)%Z).
rewrite mulrBl -ek -sumrB mulr_suml -sumrB; apply: eq_bigr => j _.
rewrite (nth_map 0) ?sr // nth_vsub ?sw ?se //.
have := divz_eq (nth 0 w j - nth 0 e j) 2; move: (nth 0 h j) (nth 0 w j) (nth 0 e j) (_ %/ _)%Z (_ %% _)%Z => a b c x y e1.
by rewrite -mulrBr e1 mulrDr mulrA [_ + a * y]addrC addrK.
Qed.
End Integer.
