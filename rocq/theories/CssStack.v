(* Stacking and concatenating CSS codes: model of CSSCode.stack and CSSCode.concatenate (qldpc/codes/common.py:2217-2296),
   and distances of stacked codes. *)
From mathcomp Require Import all_ssreflect all_algebra zify.
From Verif Require Import LinAlg RowReduce Classical ClassicalProofs ClassicalProofs2 Symplectic Quantum QuantumProofs
  QuantumPerm QuantumStab QuantumLogs QuantumOps QuantumStack QuantumConcat.
From Verif Require Import Css CssLogs CssProofs CssGauge QuantumDist ClassicalDist CssDist.
Set Implicit Arguments.
Unset Strict Implicit.
Unset Printing Implicit Defensive.
Import GRing.Theory.
Local Open Scope ring_scope.

Section Model.
Variable F : fieldType.
Notation vec := (seq F).
Notation mat := (seq (seq F)).
Implicit Types c : csscode F.

(* common.py:2217-2243: CSSCode.stack of CSS codes over one field (the TypeError of line 2226 and the ValueError of
   common.py:578 are outside the model); None models exceptions of get_logical_ops and set_logical_ops_xz *)
Definition c_stack (cs : seq (csscode F)) (inherit : bool) : option (csscode F) :=
  let code_x := stack [seq mkcode (c_n c) (c_x c) | c <- cs] in
  let code_z := stack [seq mkcode (c_n c) (c_z c) | c <- cs] in
  let code := mkcss (cc_n code_x) (cc_mat code_x) (cc_mat code_z) (Some (has (@c_sub F) cs)) in
  if ~~ inherit then Some code
  else match all_some [seq c_get_logical_ops_pauli c true | c <- cs],
             all_some [seq c_get_logical_ops_pauli c false | c <- cs] with
       | Some lx, Some lz => c_set_logical_ops_xz code (block_diag (zip (map (@c_n F) cs) lx))
                                                       (block_diag (zip (map (@c_n F) cs) lz)) true
       | _, _ => None
       end.

(* common.py:2234 with common.py:1601: the field _equal_distance_xz of the stacked code, and its unknown distances *)
Definition c_stack_dist (sts : seq dstate) (c : csscode F) : dstate :=
  DState None None None (all ds_eq sts || (c_x c == c_z c)).

(* assignment to the field _logical_ops (common.py:1548 and 2295) *)
Definition c_set_logs c (l : mat) : csscode F :=
  CSS (c_n c) (c_x c) (c_z c) (c_sub c) (c_stab c) (c_gauge c) (Some l) (c_dim c).

(* common.py:2276-2296: the last part of CSSCode.concatenate, given standardised inputs *)
Definition c_concat_core (inner outer : csscode F) (inherit : bool) : option (csscode F) :=
  let n := c_n inner in
  match c_get_logical_ops_pauli inner true, c_get_logical_ops_pauli inner false with
  | Some lx, Some lz =>
    let code := mkcss n (c_x inner ++ mull n (c_x outer) lx) (c_z inner ++ mull n (c_z outer) lz) None in
    if ~~ inherit then Some code
    else match c_get_logical_ops outer false, c_get_logical_ops inner false with
         | Some lo, Some li => Some (c_set_logs code (mull (n + n) lo li))
         | _, _ => None
         end
  | _, _ => None
  end.

(* common.py:2245-2296 with common.py:1501-1553: CSSCode.concatenate.  None models the exceptions.  As for
   QuditCode.concatenate the result comes with the objects `inner` and `outer` in their new state. *)
Definition c_concatenate (inner outer : csscode F) (wiring : option (seq nat)) (inherit : bool) :
    option (csscode F * (csscode F * csscode F)) :=
  let ki := c_dimension inner in
  let no := c_n outer in
  let w := if wiring is Some w then w else default_wiring no ki in
  if ~~ [&& (0 < ki)%N, (0 < no)%N, (size w %% ki == 0)%N & (size w %% no == 0)%N] then None
  else
    let bi := (size w %/ ki)%N in
    let bo := (size w %/ no)%N in
    if (if (1 < bi)%N then c_stack (nseq bi inner) true else Some inner) is Some inner1 then
      if (if (1 < bo)%N then c_stack (nseq bo outer) true else Some outer) is Some outer1 then
        if c_get_logical_ops inner1 false is Some li then
          let ki1 := c_dimension inner1 in
          if all (fun i => i < ki1)%N w && (size w == ki1) then
            let inner2 := c_set_logs inner1 (permute_logs w ki1 li) in
            if c_concat_core inner2 outer1 inherit is Some c then
              Some (c, (if (1 < bi)%N then inner else inner2, outer))
            else None
          else None
        else None
      else None
    else None.
End Model.

(* =============================================================================== distances of stacked codes *)
Section Dist.
Variable F : fieldType.
Notation vec := (seq F).
Notation mat := (seq (seq F)).

(* the restrictions of an operator on n + m qudits to the first n and to the last m qudits *)
Definition resl (n m : nat) (v : vec) : vec := take n v ++ take n (drop (n + m) v).
Definition resr (n m : nat) (v : vec) : vec := take m (drop n v) ++ take m (drop (n + m + n) v).

Lemma size_resl n m (v : vec) : size v = (n + m + (n + m))%N -> size (resl n m v) = (n + n)%N.
Proof. by move=> sv; rewrite size_cat !size_take !size_drop sv; case: ifP; case: ifP; lia. Qed.
Lemma size_resr n m (v : vec) : size v = (n + m + (n + m))%N -> size (resr n m v) = (m + m)%N.
Proof. by move=> sv; rewrite size_cat !size_take !size_drop sv; case: ifP; case: ifP; lia. Qed.

Lemma nth_resl n m (v : vec) j : size v = (n + m + (n + m))%N -> (j < n)%N ->
  nth 0 (resl n m v) j = nth 0 v j /\ nth 0 (resl n m v) (n + j) = nth 0 v (n + m + j).
Proof.
move=> sv lj; have st : size (take n v) = n by rewrite size_take sv; case: ifP; lia.
by rewrite /resl !nth_cat st lj ltnNge leq_addr /= addKn !nth_take // nth_drop.
Qed.
Lemma nth_resr n m (v : vec) j : size v = (n + m + (n + m))%N -> (j < m)%N ->
  nth 0 (resr n m v) j = nth 0 v (n + j) /\ nth 0 (resr n m v) (m + j) = nth 0 v (n + m + (n + j)).
Proof.
move=> sv lj; have st : size (take m (drop n v)) = m by rewrite size_take size_drop sv; case: ifP; lia.
by rewrite /resr !nth_cat st lj ltnNge leq_addr /= addKn !nth_take // !nth_drop !addnA.
Qed.

Lemma qwt_res n m (v : vec) : size v = (n + m + (n + m))%N -> qwt (n + m) v = (qwt n (resl n m v) + qwt m (resr n m v))%N.
Proof.
move=> sv; rewrite /qwt iotaD count_cat add0n; congr (_ + _)%N.
  by apply: eq_in_count => j; rewrite mem_iota /= add0n => lj; have [-> ->] := nth_resl sv lj.
have -> : iota n m = map (addn n) (iota 0 m) by rewrite -iotaDl addn0.
rewrite count_map; apply: eq_in_count => j; rewrite mem_iota /= add0n => lj.
by have [-> ->] := nth_resr sv lj.
Qed.

Lemma symp_res n m (u v : vec) : size u = (n + m + (n + m))%N -> size v = (n + m + (n + m))%N ->
  symp (n + m) u v = symp n (resl n m u) (resl n m v) + symp m (resr n m u) (resr n m v).
Proof.
move=> su sv; rewrite /symp big_split_ord /=; congr (_ + _); apply: eq_bigr => j _.
  by have [-> ->] := nth_resl su (ltn_ord j); have [-> ->] := nth_resl sv (ltn_ord j).
by have [-> ->] := nth_resr su (ltn_ord j); have [-> ->] := nth_resr sv (ltn_ord j).
Qed.

Lemma resl_injl n m (r : vec) : size r = (n + n)%N -> resl n m (injl n m r) = r.
Proof.
move=> sr; have st := half_take sr; have sd := half_drop sr.
rewrite /resl /injl take_cat size_cat st size_vzero.
have -> : (n < n + m)%N = (0 < m)%N by lia.
have -> : (if (0 < m)%N then take n (take n r ++ vzero F m) else
  (take n r ++ vzero F m) ++ take (n - (n + m)) (drop n r ++ vzero F m)) = take n r.
  case: posnP => [-> | _]; first by rewrite addn0 subnn take0 !cats0.
  by rewrite take_size_cat.
by rewrite drop_size_cat ?size_cat ?st ?size_vzero // take_size_cat // cat_take_drop.
Qed.
Lemma resr_injl n m (r : vec) : size r = (n + n)%N -> resr n m (injl n m r) = vzero F (m + m).
Proof.
move=> sr; have st := half_take sr; have sd := half_drop sr.
rewrite /resr /injl -catA drop_size_cat // take_size_cat ?size_vzero //.
have -> : take n r ++ vzero F m ++ drop n r ++ vzero F m = (take n r ++ vzero F m ++ drop n r) ++ vzero F m by rewrite -!catA.
rewrite drop_size_cat; last by rewrite !size_cat st sd size_vzero addnA.
by rewrite take_oversize ?size_vzero // /vzero nseqD.
Qed.
Lemma resr_injr n m (r : vec) : size r = (m + m)%N -> resr n m (injr n m r) = r.
Proof.
move=> sr; have st := half_take sr; have sd := half_drop sr.
rewrite /resr /injr -!catA drop_size_cat ?size_vzero // take_size_cat //.
have -> : vzero F n ++ take m r ++ vzero F n ++ drop m r = (vzero F n ++ take m r ++ vzero F n) ++ drop m r by rewrite -!catA.
rewrite drop_size_cat; last by rewrite !size_cat st !size_vzero addnA.
by rewrite [take m (drop m r)]take_oversize ?sd // cat_take_drop.
Qed.
Lemma resl_injr n m (r : vec) : size r = (m + m)%N -> resl n m (injr n m r) = vzero F (n + n).
Proof.
move=> sr; have st := half_take sr; have sd := half_drop sr.
rewrite /resl /injr -catA take_size_cat ?size_vzero // catA drop_size_cat; last by rewrite size_cat st size_vzero.
by rewrite take_size_cat ?size_vzero // /vzero nseqD.
Qed.

Lemma rv_res n m (v : vec) : size v = (n + m + (n + m))%N ->
  rv _ v = row_mx (rv (n + n) (resl n m v)) (rv (m + m) (resr n m v)) *m col_mx (EL F n m) (ER F n m).
Proof.
move=> sv; set a := take n v; set b := take m (drop n v).
set c := take n (drop (n + m) v); set d := take m (drop (n + m + n) v).
have ev : v = (a ++ b) ++ (c ++ d).
  have e1 : drop (n + m + n) v = drop n (drop (n + m) v) by rewrite drop_drop [(n + (n + m))%N]addnC.
  have e2 : d = drop n (drop (n + m) v) by rewrite /d e1 take_oversize // !size_drop sv; lia.
  by rewrite e2 cat_take_drop /a /b -{1}(cat_take_drop (n + m) v) takeD.
have sa : size a = n by rewrite size_take sv; case: ifP; lia.
have sb : size b = m by rewrite size_take size_drop sv; case: ifP; lia.
have sc : size c = n by rewrite size_take size_drop sv; case: ifP; lia.
have sd : size d = m by rewrite size_take size_drop sv; case: ifP; lia.
rewrite {1}ev /resl /resr -/a -/b -/c -/d rv_cat ?size_cat ?sa ?sb // !rv_cat //.
rewrite mul_row_col /EL /ER !mul_row_block !mulmx0 !addr0 !add0r !mul_mx_row !mulmx1 !mulmx0.
by rewrite !add_row_mx !addr0 !add0r.
Qed.

Lemma span_side n m (A B : mat) (v : vec) : wf (n + n) A -> wf (m + m) B -> size v = (n + m + (n + m))%N ->
  span (n + m + (n + m)) (side n m A B) v <-> span (n + n) A (resl n m v) /\ span (m + m) B (resr n m v).
Proof.
move=> wA wB sv; rewrite !spanP size_resl // size_resr // sv (sp_side wA wB) (rv_res sv).
have e : forall p q (X : 'M[F]_(p, n + n + (m + m))) (Y : 'M[F]_(q, n + n + (m + m))),
    (X *m col_mx (EL F n m) (ER F n m) <= Y *m col_mx (EL F n m) (ER F n m))%MS = (X <= Y)%MS.
  move=> p q X Y; apply/idP/idP => [/submxP [D] | h]; last exact: submxMr.
  by rewrite mulmxA => /(row_free_inj (P_free F n m)) ->; apply: submxMl.
rewrite e row_block; split=> [[_ /andP [h1 h2]] | [[_ h1] [_ h2]]]; first by [].
by rewrite h1 h2.
Qed.

Lemma central_side n m (A B : mat) (v : vec) : wf (n + n) A -> wf (m + m) B -> size v = (n + m + (n + m))%N ->
  central (n + m) (side n m A B) v <-> central n A (resl n m v) /\ central m B (resr n m v).
Proof.
move=> wA wB sv; rewrite /central span_side //; move/wfP: (wA) => hA; move/wfP: (wB) => hB.
have zl (u : vec) : symp n (vzero F (n + n)) u = 0.
  by rewrite /symp big1 // => j _; rewrite !nth_nseq !if_same !mul0r subrr.
have zr (u : vec) : symp m (vzero F (m + m)) u = 0.
  by rewrite /symp big1 // => j _; rewrite !nth_nseq !if_same !mul0r subrr.
have sl r : r \in A -> symp (n + m) (injl n m r) v = symp n r (resl n m v).
  by move=> hr; rewrite (symp_res (size_injl m (hA _ hr)) sv) (resl_injl m (hA _ hr)) (resr_injl m (hA _ hr)) zr addr0.
have sr r : r \in B -> symp (n + m) (injr n m r) v = symp m r (resr n m v).
  by move=> hr; rewrite (symp_res (size_injr n (hB _ hr)) sv) (resl_injr n (hB _ hr)) (resr_injr n (hB _ hr)) zl add0r.
split=> [[[h1 h2] h] | [[h1 h3] [h2 h4]]].
  split; split=> // r hr; [rewrite -sl // | rewrite -sr //]; apply: h; rewrite mem_cat; apply/orP; [left | right]; exact: map_f.
by split=> // r; rewrite mem_cat => /orP [] /mapP [t ht ->]; rewrite ?sl ?sr //; [exact: h3 | exact: h4].
Qed.

(* a nontrivial operator of the stacked code commutes with the stabilizers of both codes, and is nontrivial for one of them *)
Definition undetected n (A : mat) (v : vec) : Prop := forall s, central n A s -> symp n s v = 0.
Lemma central_size n (A : mat) (v : vec) : central n A v -> size v = (n + n)%N.
Proof. by case=> /spanP []. Qed.
Lemma central0 n (A : mat) : central n A (vzero F (n + n)).
Proof.
split; first by apply/spanP; rewrite size_vzero rv_zero sub0mx.
by move=> r _; rewrite /symp big1 // => j _; rewrite !nth_nseq !if_same !mulr0 subrr.
Qed.

Lemma nontrivial_side n m (A B : mat) (v : vec) : wf (n + n) A -> wf (m + m) B ->
  nontrivial (n + m) (side n m A B) v <->
  [/\ size v = (n + m + (n + m))%N, undetected n A (resl n m v), undetected m B (resr n m v)
    & nontrivial n A (resl n m v) \/ nontrivial m B (resr n m v)].
Proof.
move=> wA wB; split=> [[sv h1 h2] | [sv h1 h2 h3]].
  have ua : undetected n A (resl n m v).
    move=> s cs; have ss := central_size cs.
    have := h1 (injl n m s); rewrite symp_res ?size_injl // resl_injl // resr_injl //.
    rewrite [X in _ + X]/symp big1 ?addr0; last by move=> j _; rewrite !nth_nseq !if_same !mul0r subrr.
    by apply; apply/central_side; rewrite ?size_injl // resl_injl // resr_injl //; split=> //; apply: central0.
  have ub : undetected m B (resr n m v).
    move=> s cs; have ss := central_size cs.
    have := h1 (injr n m s); rewrite symp_res ?size_injr // resl_injr // resr_injr //.
    rewrite [X in X + _]/symp big1 ?add0r; last by move=> j _; rewrite !nth_nseq !if_same !mul0r subrr.
    by apply; apply/central_side; rewrite ?size_injr // resl_injr // resr_injr //; split=> //; apply: central0.
  split=> //.
  have da : span (n + n) A (resl n m v) \/ ~ span (n + n) A (resl n m v).
    by rewrite spanP size_resl //; case: (_ <= _)%MS; [left | right => -[]].
  have db : span (m + m) B (resr n m v) \/ ~ span (m + m) B (resr n m v).
    by rewrite spanP size_resr //; case: (_ <= _)%MS; [left | right => -[]].
  case: da => [ha | na]; last by left; split; rewrite ?size_resl.
  case: db => [hb | nb]; last by right; split; rewrite ?size_resr.
  by case: h2; apply/span_side.
split=> // [s cs |].
  have ss := central_size cs; move/central_side: (cs) => /(_ wA wB ss) [c1 c2].
  by rewrite symp_res // h1 // h2 // addr0.
by move/span_side => /(_ wA wB sv) [s1 s2]; case: h3 => -[_ _ []].
Qed.

(* operators of any type (T = None), of X type, or of Z type *)
Definition of_type (T : option bool) (n : nat) (v : vec) : Prop :=
  if T is Some x then (if x then drop n v else take n v) = vzero F n else True.

Lemma undet0 n (A : mat) : undetected n A (vzero F (n + n)).
Proof. by move=> s _; rewrite /symp big1 // => j _; rewrite !nth_nseq !if_same !mulr0 subrr. Qed.

Lemma qwt0 n : qwt n (vzero F (n + n)) = 0%N.
Proof. by apply/eqP; rewrite -leqn0 leqNgt -has_count; apply/hasPn => j _; rewrite !nth_nseq !if_same eqxx. Qed.

Lemma type_resl T n m (v : vec) : size v = (n + m + (n + m))%N -> of_type T (n + m) v -> of_type T n (resl n m v).
Proof.
case: T => [[]|] //= sv; rewrite /resl => e.
  rewrite drop_size_cat ?e; last by rewrite size_take sv; case: ifP; lia.
  by rewrite /vzero nseqD take_size_cat ?size_nseq.
rewrite take_size_cat; last by rewrite size_take sv; case: ifP; lia.
have -> : take n v = take n (take (n + m) v) by rewrite take_take // leq_addr.
by rewrite e /vzero nseqD take_size_cat ?size_nseq.
Qed.
Lemma type_resr T n m (v : vec) : size v = (n + m + (n + m))%N -> of_type T (n + m) v -> of_type T m (resr n m v).
Proof.
case: T => [[]|] //= sv; rewrite /resr => e.
  rewrite drop_size_cat; last by rewrite size_take size_drop sv; case: ifP; lia.
  have -> : drop (n + m + n) v = drop n (drop (n + m) v) by rewrite drop_drop [(n + (n + m))%N]addnC.
  by rewrite e /vzero nseqD drop_size_cat ?size_nseq // take_oversize ?size_nseq.
rewrite take_size_cat; last by rewrite size_take size_drop sv; case: ifP; lia.
have -> : take m (drop n v) = drop n (take (n + m) v) by rewrite take_drop addnC.
by rewrite e /vzero nseqD drop_size_cat ?size_nseq.
Qed.
Lemma type_injl T n m (v : vec) : size v = (n + n)%N -> of_type T n v -> of_type T (n + m) (injl n m v).
Proof.
move=> sv; have st := half_take sv; have sd := half_drop sv; case: T => [[]|] //=; rewrite /injl => e.
  by rewrite drop_size_cat ?size_cat ?st ?size_vzero // e /vzero nseqD.
by rewrite take_size_cat ?size_cat ?st ?size_vzero // e /vzero nseqD.
Qed.
Lemma type_injr T n m (v : vec) : size v = (m + m)%N -> of_type T m v -> of_type T (n + m) (injr n m v).
Proof.
move=> sv; have st := half_take sv; have sd := half_drop sv; case: T => [[]|] //=; rewrite /injr => e.
  by rewrite drop_size_cat ?size_cat ?st ?size_vzero // e /vzero nseqD.
by rewrite take_size_cat ?size_cat ?st ?size_vzero // e /vzero nseqD.
Qed.

Notation total ps := (sumn [seq p.1 | p <- ps]).

(* an operator of a part is one of the stacked code, and an operator of the stacked code contains one of some part *)
Lemma stack_has T (ps : seq (nat * mat)) i (v : vec) : wfq ps -> (i < size ps)%N ->
  let p := nth (0%N, [::]) ps i in nontrivial p.1 p.2 v -> of_type T p.1 v ->
  exists w, [/\ nontrivial (total ps) (stack_mat ps) w, of_type T (total ps) w & qwt (total ps) w = qwt p.1 v].
Proof.
elim: ps i => [|[n A] ps IH] // i /andP [wA wps]; rewrite stack_mat_cons // [total _]/=.
have wB := wf_stack_mat wps; case: i => [_ | i li] /=; move=> nv tv.
  have sv : size v = (n + n)%N by case: nv.
  exists (injl n (total ps) v); split; last by rewrite qwt_res ?size_injl // resl_injl // resr_injl // qwt0 addn0.
    apply/nontrivial_side => //; rewrite resl_injl // resr_injl // size_injl //; split=> //; last by left.
      by case: nv.
    exact: undet0.
  exact: type_injl.
have [w [nw tw ew]] := IH i wps li nv tv; have sw : size w = (total ps + total ps)%N by case: nw.
exists (injr n (total ps) w); split; last by rewrite qwt_res ?size_injr // resl_injr // resr_injr // qwt0 add0n.
  apply/nontrivial_side => //; rewrite resl_injr // resr_injr // size_injr //; split=> //; last by right.
    exact: undet0.
  by case: nw.
exact: type_injr.
Qed.

Lemma stack_part T (ps : seq (nat * mat)) (w : vec) : wfq ps ->
  nontrivial (total ps) (stack_mat ps) w -> of_type T (total ps) w ->
  exists i v, let p := nth (0%N, [::]) ps i in
    [/\ (i < size ps)%N, nontrivial p.1 p.2 v, of_type T p.1 v & (qwt p.1 v <= qwt (total ps) w)%N].
Proof.
elim: ps w => [|[n A] ps IH] w.
  move=> _ [sw _ h]; case: h; apply/spanP; split=> //.
  by move/size0nil: sw => ->; rewrite (_ : rv _ _ = 0) ?sub0mx //; apply/rowP => -[].
move=> /andP [wA wps]; rewrite stack_mat_cons // [total _]/= => nw tw.
have wB := wf_stack_mat wps; have [sw _ _ hn] := proj1 (nontrivial_side _ wA wB) nw.
rewrite qwt_res //; case: hn => h.
  by exists 0%N, (resl n (total ps) w); split=> //=; [apply: type_resl | rewrite leq_addr].
have [i [v [li nv tv le]]] := IH _ wps h (type_resr sw tw).
by exists i.+1, v; split=> //=; rewrite (leq_trans le) // leq_addl.
Qed.

(* the smallest weight of a nontrivial operator of the given type *)
Definition is_min_of T n (A : mat) d : Prop :=
  (exists v, [/\ nontrivial n A v, of_type T n v & qwt n v = d]) /\
  (forall v, nontrivial n A v -> of_type T n v -> (d <= qwt n v)%N).

Lemma stack_min T (ps : seq (nat * mat)) d : wfq ps ->
  is_min_of T (total ps) (stack_mat ps) d <->
  (exists2 i, (i < size ps)%N & let p := nth (0%N, [::]) ps i in is_min_of T p.1 p.2 d) /\
  (forall i v, (i < size ps)%N -> let p := nth (0%N, [::]) ps i in nontrivial p.1 p.2 v -> of_type T p.1 v -> (d <= qwt p.1 v)%N).
Proof.
move=> wps; split=> [[[w [nw tw ew]] m] | [[i li [[v [nv tv ev]] mi]] m]].
  have h i v : (i < size ps)%N -> let p := nth (0%N, [::]) ps i in nontrivial p.1 p.2 v -> of_type T p.1 v -> (d <= qwt p.1 v)%N.
    by move=> li p nv tv; have [u [nu tu <-]] := stack_has wps li nv tv; apply: m.
  split=> //; have [i [v [li nv tv le]]] := stack_part wps nw tw; exists i => //.
  split=> [|u nu tu]; last exact: h.
  by exists v; split=> //; apply/anti_leq; rewrite -{1}ew le h.
split=> [|w nw tw].
  by have [w [nw tw ew]] := stack_has wps li nv tv; exists w; rewrite ew.
by have [j [u [lj nu tu le]]] := stack_part wps nw tw; apply: leq_trans le; apply: m.
Qed.

Lemma min_qdist n (A : mat) d : is_min_of None n A d <-> is_qdist n A d.
Proof.
split=> -[]; first by move=> [v [nv _ ev]] m; split=> [|u nu]; [exists v | apply: m].
by move=> [v nv ev] m; split=> [|u nu _]; [exists v | apply: m].
Qed.

Lemma min_tdist x n (A : mat) d : is_min_of (Some x) n A d <-> is_tdist x n A d.
Proof.
have emb_of v : size v = n -> of_type (Some x) n (emb x n v) by case: x => sv /=; rewrite /emb ?drop_size_cat ?take_size_cat ?size_nseq.
have of_emb v : size v = (n + n)%N -> of_type (Some x) n v -> exists2 u, size u = n & v = emb x n u.
  move=> sv; have st := half_take sv; have sd := half_drop sv; rewrite /emb /=; case: (x) => e.
    by exists (take n v) => //; rewrite -{1}(cat_take_drop n v) e.
  by exists (drop n v) => //; rewrite -{1}(cat_take_drop n v) e.
split=> -[].
  move=> [v [nv tv ev]] m; have [sv _ _] := nv; split.
    by have [u su eu] := of_emb _ sv tv; exists u; split; rewrite -?eu // -ev eu qwt_emb.
  by move=> u su nu; rewrite -(qwt_emb x su); apply: m => //; apply: emb_of.
move=> [u [su nu eu]] m; split; first by exists (emb x n u); split=> //; [apply: emb_of | rewrite qwt_emb].
by move=> v nv tv; have [sv _ _] := nv; have [t st et] := of_emb _ sv tv; rewrite et qwt_emb //; apply: m; rewrite // -et.
Qed.

(* these notions depend only on the group generated by the rows *)
Lemma nontrivial_eqmx n (A B : mat) (v : vec) : wf (n + n) A -> wf (n + n) B -> (sp (n + n) A :=: sp (n + n) B)%MS ->
  nontrivial n A v <-> nontrivial n B v.
Proof.
move=> wA wB e; rewrite !nontrivialE // e.
have h : (sp (n + n) A :&: scomp (sp (n + n) A) :=: sp (n + n) B :&: scomp (sp (n + n) B))%MS.
  by apply: cap_eqmx => //; apply: scomp_eqmx.
by rewrite (scomp_eqmx h).
Qed.
Lemma min_of_eqmx T n (A B : mat) d : wf (n + n) A -> wf (n + n) B -> (sp (n + n) A :=: sp (n + n) B)%MS ->
  is_min_of T n A d <-> is_min_of T n B d.
Proof.
move=> wA wB e; have h v := nontrivial_eqmx v wA wB e.
split=> -[[v [nv tv ev]] m]; (split; first by exists v; split=> //; apply/h).
  by move=> u /h nu tu; apply: m.
by move=> u /h nu tu; apply: m.
Qed.
End Dist.

(* =============================================================================== CSS codes *)
Section Stack.
Variable F : fieldType.
Notation vec := (seq F).
Notation mat := (seq (seq F)).
Notation total ps := (sumn [seq p.1 | p <- ps]).
Implicit Types c : csscode F.

Lemma css_side n m (X Z X' Z' : mat) : wf n X -> wf n Z -> wf m X' -> wf m Z' ->
  perm_eq (css_mat (n + m) (bdiag n m X X') (bdiag n m Z Z')) (side n m (css_mat n X Z) (css_mat m X' Z')).
Proof.
move=> /wfP wX /wfP wZ /wfP wX' /wfP wZ'; rewrite /side /css_mat /bdiag !map_cat -!map_comp -!catA.
have -> : map (injl n m \o cat^~ (nseq n 0)) X = map (cat^~ (nseq (n + m) 0) \o cat^~ (nseq m 0)) X.
  by apply/eq_in_map => r /wX sr /=; rewrite /injl take_size_cat // drop_size_cat // nseqD.
have -> : map (injl n m \o cat (nseq n 0)) Z = map (cat (nseq (n + m) 0) \o cat^~ (nseq m 0)) Z.
  by apply/eq_in_map => r /wZ sr /=; rewrite /injl take_size_cat ?size_nseq // drop_size_cat ?size_nseq // nseqD.
have -> : map (injr n m \o cat^~ (nseq m 0)) X' = map (cat^~ (nseq (n + m) 0) \o cat (nseq n 0)) X'.
  by apply/eq_in_map => r /wX' sr /=; rewrite /injr take_size_cat // drop_size_cat // nseqD.
have -> : map (injr n m \o cat (nseq m 0)) Z' = map (cat (nseq (n + m) 0) \o cat (nseq n 0)) Z'.
  by apply/eq_in_map => r /wZ' sr /=; rewrite /injr take_size_cat ?size_nseq // drop_size_cat ?size_nseq // nseqD.
by rewrite perm_cat2l perm_catCA.
Qed.

Lemma css_stack_perm (ts : seq (nat * (mat * mat))) : all (fun t => wf t.1 t.2.1 && wf t.1 t.2.2) ts ->
  let N := sumn (map fst ts) in
  perm_eq (css_mat N (block_diag [seq (t.1, t.2.1) | t <- ts]) (block_diag [seq (t.1, t.2.2) | t <- ts]))
          (stack_mat [seq (t.1, css_mat t.1 t.2.1 t.2.2) | t <- ts]).
Proof.
elim: ts => [|[n [X Z]] ts IH] // /andP [/= /andP [wX wZ] wts].
have wps : wfq [seq (t.1, css_mat t.1 t.2.1 t.2.2) | t <- ts].
  by apply/allP => p /mapP [t ht ->] /=; have /andP [] := allP wts _ ht; apply: wf_css.
rewrite stack_mat_cons ?wf_css //; move: (IH wts); set SM := stack_mat _ => hp.
rewrite -!map_comp /=; set N := sumn (map fst ts); rewrite -/N in hp.
have wb (f : nat * (mat * mat) -> mat) : (forall t, t \in ts -> wf t.1 (f t)) -> wf N (block_diag [seq (t.1, f t) | t <- ts]).
  move=> h; have <- : total [seq (t.1, f t) | t <- ts] = N by rewrite -map_comp.
  by apply: wf_block_diag; apply/allP => p /mapP [t ht ->]; apply: h.
apply: perm_trans (css_side wX wZ _ _) _.
- by apply: wb => t ht; have /andP [] := allP wts _ ht.
- by apply: wb => t ht; have /andP [] := allP wts _ ht.
by rewrite /side perm_cat2l; apply: perm_map.
Qed.

Definition ccdflt : csscode F := mkcss 0 [::] [::] (Some false).
Notation nc cs i := (nth ccdflt cs i).
Notation parts cs := [seq (c_n c, css_mat (c_n c) (c_x c) (c_z c)) | c <- cs].
Notation bx cs := (block_diag [seq (c_n c, c_x c) | c <- cs]).
Notation bz cs := (block_diag [seq (c_n c, c_z c) | c <- cs]).
Notation len cs := (sumn [seq c_n c | c <- cs]).

Implicit Type cs : seq (csscode F).
Lemma len_parts cs : total (parts cs) = len cs. Proof. by rewrite -map_comp. Qed.

Lemma nth_parts cs i : (i < size cs)%N ->
  nth (0%N, [::]) (parts cs) i = (c_n (nc cs i), css_mat (c_n (nc cs i)) (c_x (nc cs i)) (c_z (nc cs i))).
Proof. by move=> li; rewrite (nth_map ccdflt). Qed.

Lemma parts_wf cs : (forall i, (i < size cs)%N -> c_ok (nc cs i)) -> wfq (parts cs).
Proof.
move=> ok; apply/(all_nthP (0%N, [::])) => i; rewrite size_map => li; rewrite nth_parts //.
by have [_ wX wZ _ _] := ok _ li; apply: wf_css.
Qed.

Lemma stack_perm cs : (forall i, (i < size cs)%N -> c_ok (nc cs i)) ->
  perm_eq (css_mat (len cs) (bx cs) (bz cs)) (stack_mat (parts cs)).
Proof.
move=> ok; have := @css_stack_perm [seq (c_n c, (c_x c, c_z c)) | c <- cs]; rewrite -!map_comp; apply.
apply/(all_nthP (0%N, ([::], [::]))) => i; rewrite size_map => li; rewrite (nth_map ccdflt) //=.
by have [_ -> ->] := ok _ li.
Qed.

Lemma stack_wf cs : (forall i, (i < size cs)%N -> c_ok (nc cs i)) -> wf (len cs) (bx cs) /\ wf (len cs) (bz cs).
Proof.
move=> ok; have h (f : csscode F -> mat) : (forall c, c_ok c -> wf (c_n c) (f c)) ->
    wf (len cs) (block_diag [seq (c_n c, f c) | c <- cs]).
  move=> hf; have <- : total [seq (c_n c, f c) | c <- cs] = len cs by rewrite -map_comp.
  apply: wf_block_diag; apply/(all_nthP (0%N, [::])) => i; rewrite size_map => li.
  by rewrite (nth_map ccdflt) //; apply: hf; apply: ok.
by split; apply: h => c [].
Qed.

(* the stacked logical operators, as rows [x|z] *)
Lemma zero_bd (ps : seq (nat * mat)) :
  block_diag [seq (p.1, map (fun=> nseq p.1 (0 : F)) p.2) | p <- ps] = map (fun=> nseq (total ps) (0 : F)) (block_diag ps).
Proof.
elim: ps => [|[n A] ps IH] //=; rewrite IH -map_comp /bdiag map_cat -!map_comp.
by congr (_ ++ _); apply: eq_map => r /=; rewrite nseqD.
Qed.
Lemma hcat_zeror N (A : mat) : hcat A (map (fun=> nseq N (0 : F)) A) = map (cat^~ (nseq N 0)) A.
Proof. by elim: A => //= r A IH; rewrite -IH. Qed.
Lemma hcat_zerol N (A : mat) : hcat (map (fun=> nseq N (0 : F)) A) A = map (cat (nseq N 0)) A.
Proof. by elim: A => //= r A IH; rewrite -IH. Qed.

Lemma stack_logs_css (ns : seq nat) (lx lz : seq mat) : size lx = size ns -> size lz = size ns ->
  (forall i, (i < size ns)%N -> wf (nth 0%N ns i) (nth [::] lx i) /\ size (nth [::] lx i) = size (nth [::] lz i)) ->
  stack_logs (zip ns [seq bdiag p.1 p.1 p.2.1 p.2.2 | p <- zip ns (zip lx lz)]) =
  bdiag (sumn ns) (sumn ns) (block_diag (zip ns lx)) (block_diag (zip ns lz)).
Proof.
move=> sx sz h; set cls := zip ns _.
have [e1 e2 e3 e4] : [/\ [seq (p.1, x_part p.1 (take (size p.2 %/ 2)%N p.2)) | p <- cls] = zip ns lx,
     [seq (p.1, z_part p.1 (take (size p.2 %/ 2)%N p.2)) | p <- cls] = [seq (p.1, map (fun=> nseq p.1 (0 : F)) p.2) | p <- zip ns lx],
     [seq (p.1, x_part p.1 (drop (size p.2 %/ 2)%N p.2)) | p <- cls] = [seq (p.1, map (fun=> nseq p.1 (0 : F)) p.2) | p <- zip ns lz]
   & [seq (p.1, z_part p.1 (drop (size p.2 %/ 2)%N p.2)) | p <- cls] = zip ns lz].
  rewrite {}/cls; elim: ns lx lz sx sz h => [|n ns IH] [|x lx] [|z lz] // [sx] [sz] h.
  have [/= wx ex] := h 0%N isT; have [i1 i2 i3 i4] := IH lx lz sx sz (fun i li => h i.+1 li).
  have hs : (size (bdiag n n x z) %/ 2)%N = size x by rewrite size_bdiag -ex addnn divn2 doubleK.
  have sm : size (map (cat^~ (nseq n 0)) x) = size x by rewrite size_map.
  have tk : take (size x) (bdiag n n x z) = map (cat^~ (nseq n 0)) x by rewrite /bdiag take_size_cat.
  have dk : drop (size x) (bdiag n n x z) = map (cat (nseq n 0)) z by rewrite /bdiag drop_size_cat.
  rewrite /= !hs !tk !dk /x_part /z_part -!map_comp i1 i2 i3 i4; move/wfP: wx => wx.
  split; congr ((_, _) :: _).
  - by rewrite -[RHS]map_id; apply/eq_in_map => r /wx sr /=; rewrite take_size_cat.
  - by apply/eq_in_map => r /wx sr /=; rewrite drop_size_cat.
  - by apply: eq_map => r /=; rewrite take_size_cat ?size_nseq.
  by rewrite -[RHS]map_id; apply: eq_map => r /=; rewrite drop_size_cat ?size_nseq.
have tt (l : seq mat) : size l = size ns -> total (zip ns l) = sumn ns.
  by move=> sl; rewrite -/(unzip1 _) unzip1_zip ?sl.
by rewrite /stack_logs e1 e2 e3 e4 !zero_bd hcat_zeror hcat_zerol !tt.
Qed.

Lemma logical_perm n k (A B L : mat) : perm_eq A B -> logical_basis n k A L <-> logical_basis n k B L.
Proof. by move=> pe; split=> -[dp h]; split=> // r l hr; apply: h; rewrite ?(perm_mem pe) // -(perm_mem pe). Qed.

Definition c_lx c : mat := odflt [::] (c_get_logical_ops_pauli c true).
Definition c_lz c : mat := odflt [::] (c_get_logical_ops_pauli c false).
Lemma c_lxz c : c_ok c ->
  [/\ c_get_logical_ops_pauli c true = Some (c_lx c), c_get_logical_ops_pauli c false = Some (c_lz c),
      c_get_logical_ops c false = Some (bdiag (c_n c) (c_n c) (c_lx c) (c_lz c)), wf (c_n c) (c_lx c) /\ wf (c_n c) (c_lz c)
    & [/\ size (c_lx c) = c_dimension c, size (c_lz c) = c_dimension c
      & logical_basis (c_n c) (c_dimension c) (css_mat (c_n c) (c_x c) (c_z c)) (bdiag (c_n c) (c_n c) (c_lx c) (c_lz c))]].
Proof.
move=> ok; have [lx [lz [e s1 s2 lb]]] := c_logicals_ok false ok.
have [[sL wL _] _] := lb; have [w1 w2] := wf_bdiag_inv wL.
have e1 : c_get_logical_ops_pauli c true = Some lx.
  by rewrite /c_get_logical_ops_pauli e sL eqxx (bdiag_take _ w1 s1).
have e2 : c_get_logical_ops_pauli c false = Some lz.
  by rewrite /c_get_logical_ops_pauli e sL eqxx (bdiag_drop _ _ s1).
by rewrite /c_lx /c_lz e1 e2 /=.
Qed.

Lemma all_some_map (T U : Type) (f : T -> option U) (g : T -> U) (s : seq T) x0 :
  (forall i, (i < size s)%N -> f (nth x0 s i) = Some (g (nth x0 s i))) -> all_some (map f s) = Some (map g s).
Proof.
elim: s => //= x s IH h; rewrite (h 0%N isT) /= IH // => i li; exact: (h i.+1).
Qed.

Lemma stacked_logicals cs : (forall i, (i < size cs)%N -> c_ok (nc cs i)) ->
  logical_basis (len cs) (sumn [seq c_dimension c | c <- cs]) (css_mat (len cs) (bx cs) (bz cs))
    (bdiag (len cs) (len cs) (block_diag [seq (c_n c, c_lx c) | c <- cs]) (block_diag [seq (c_n c, c_lz c) | c <- cs])).
Proof.
move=> ok; apply/(logical_perm _ _ _ (stack_perm ok)).
have okq i : (i < size [seq c_q c | c <- cs])%N -> q_ok (nth (cdflt F) [seq c_q c | c <- cs] i).
  by rewrite size_map => li; rewrite (nth_map ccdflt) //; have [] := ok _ li.
pose ls := [seq bdiag (c_n c) (c_n c) (c_lx c) (c_lz c) | c <- cs].
have sl : size ls = size [seq c_q c | c <- cs] by rewrite !size_map.
have dq i : (i < size cs)%N -> q_dimension (c_q (nc cs i)) = c_dimension (nc cs i).
  by move=> li; have [_ wX wZ _ _] := ok _ li; rewrite c_dimension_q.
have hv i : (i < size [seq c_q c | c <- cs])%N -> valid_logs (nth (cdflt F) [seq c_q c | c <- cs] i) (nth [::] ls i).
  rewrite size_map => li; rewrite !(nth_map ccdflt) // /valid_logs dq //.
  by have [_ _ _ _ [_ _ h]] := c_lxz (ok _ li).
have ed : [seq q_dimension c | c <- [seq c_q c | c <- cs]] = [seq c_dimension c | c <- cs].
  by rewrite -map_comp; apply: (@eq_from_nth _ 0%N); rewrite !size_map // => i li; rewrite !(nth_map ccdflt) //= dq.
have en : [seq q_n c | c <- [seq c_q c | c <- cs]] = [seq c_n c | c <- cs] by rewrite -map_comp.
have em : [seq (q_n c, q_mat c) | c <- [seq c_q c | c <- cs]] = parts cs by rewrite -map_comp.
have := stack_inherit okq sl hv; rewrite ed en em.
have zm (f : csscode F -> mat) : zip [seq c_n c | c <- cs] (map f cs) = [seq (c_n c, f c) | c <- cs] by rewrite zip_map.
have -> : ls = [seq bdiag p.1 p.1 p.2.1 p.2.2 | p <- zip [seq c_n c | c <- cs] (zip (map (@c_lx) cs) (map (@c_lz) cs))].
  by rewrite !zip_map -map_comp.
rewrite stack_logs_css ?size_map //; first by rewrite !zm.
move=> i li; rewrite !(nth_map ccdflt) //.
by have [_ _ _ [-> _] [-> -> _]] := c_lxz (ok _ li).
Qed.

Definition stack_base cs : csscode F := mkcss (len cs) (bx cs) (bz cs) (Some (has (@c_sub F) cs)).

Lemma stack_base_ok cs : (forall i, (i < size cs)%N -> c_ok (nc cs i)) ->
  [/\ c_ok (stack_base cs), c_dimension (stack_base cs) = sumn [seq c_dimension c | c <- cs],
      c_gauge_dimension (stack_base cs) = sumn [seq c_gauge_dimension c | c <- cs]
    & commuting (len cs) (css_mat (len cs) (bx cs) (bz cs)) <->
      forall i, (i < size cs)%N -> commuting (c_n (nc cs i)) (css_mat (c_n (nc cs i)) (c_x (nc cs i)) (c_z (nc cs i)))].
Proof.
move=> ok; have pe := stack_perm ok; have [wX wZ] := stack_wf ok; have wps := parts_wf ok.
have hcomm : commuting (len cs) (css_mat (len cs) (bx cs) (bz cs)) <->
      forall i, (i < size cs)%N -> commuting (c_n (nc cs i)) (css_mat (c_n (nc cs i)) (c_x (nc cs i)) (c_z (nc cs i))).
  have -> : commuting (len cs) (css_mat (len cs) (bx cs) (bz cs)) <-> commuting (len cs) (stack_mat (parts cs)).
    by split=> h u v hu hv; apply: h; rewrite ?(perm_mem pe) // -(perm_mem pe).
  rewrite /commuting -[in X in X <-> _]len_parts stack_comm // size_map.
  by split=> h i li; have := h i li; rewrite nth_parts.
have okc : c_ok (stack_base cs).
  apply: c_ok_mk => // -[hs]; apply/css_commP => //; apply/hcomm => i li.
  have [[_ h _ _ _] _ _ _ _] := ok _ li; apply: h.
  by apply: contraFF hs => hi; apply/(has_nthP ccdflt); exists i.
have wM : wf (len cs + len cs) (css_mat (len cs) (bx cs) (bz cs)) by apply: wf_css.
have wS : wf (len cs + len cs) (stack_mat (parts cs)) by rewrite -len_parts; apply: wf_stack_mat.
have hc : counts (len cs) (css_mat (len cs) (bx cs) (bz cs)) (sumn [seq c_dimension c | c <- cs]) (sumn [seq c_gauge_dimension c | c <- cs]).
  apply: (counts_eqmx wS wM (eqmx_sym (sp_perm _ pe))); rewrite -[in X in counts X]len_parts; apply: stack_counts; rewrite ?size_map // => i li.
  by rewrite nth_parts // !(nth_map ccdflt) //; apply: c_counts; apply: ok.
by have [e1 e2] := counts_unique wM (c_counts okc) hc.
Qed.

Theorem c_stack_ok cs (inherit : bool) : (forall i, (i < size cs)%N -> c_ok (nc cs i)) ->
  exists c, [/\ c_stack cs inherit = Some c, c_ok c, [/\ c_n c = len cs, c_x c = bx cs & c_z c = bz cs], c_sub c = has (@c_sub F) cs
    & [/\ c_dimension c = sumn [seq c_dimension c | c <- cs], c_gauge_dimension c = sumn [seq c_gauge_dimension c | c <- cs]
        & inherit -> let L := bdiag (len cs) (len cs) (block_diag [seq (c_n c, c_lx c) | c <- cs]) (block_diag [seq (c_n c, c_lz c) | c <- cs]) in
            c_get_logical_ops c false = Some L /\ logical_basis (c_n c) (c_dimension c) (css_mat (c_n c) (c_x c) (c_z c)) L]].
Proof.
move=> ok; have [okc ek eg _] := stack_base_ok ok.
have ex : bx cs = cc_mat (stack [seq mkcode (c_n c) (c_x c) | c <- cs]) by rewrite /= -map_comp.
have ez : bz cs = cc_mat (stack [seq mkcode (c_n c) (c_z c) | c <- cs]) by rewrite /= -map_comp.
have en : len cs = cc_n (stack [seq mkcode (c_n c) (c_x c) | c <- cs]) by rewrite /= -map_comp.
rewrite /c_stack -ex -ez -en -/(stack_base cs); case: inherit => /=; last first.
  by exists (stack_base cs).
rewrite (@all_some_map _ _ _ (@c_lx) cs ccdflt); last by move=> i li; have [] := c_lxz (ok _ li).
rewrite (@all_some_map _ _ _ (@c_lz) cs ccdflt); last by move=> i li; have [] := c_lxz (ok _ li).
rewrite !zip_map; have lb := stacked_logicals ok.
set lx := block_diag _; set lz := block_diag _; rewrite -/lx -/lz in lb.
rewrite /c_set_logical_ops_xz /c_set_logical_ops [c_n (stack_base cs)]/=.
have [okq wX wZ hs hl] := okc.
have lb' : logical_basis (q_n (c_q (stack_base cs))) (q_dimension (c_q (stack_base cs))) (q_mat (c_q (stack_base cs))) (bdiag (len cs) (len cs) lx lz).
  by rewrite -c_dimension_q // ek.
have [e1 ok1] := set_logical_ops_complete okq lb'; rewrite e1.
have wf2 (f : csscode F -> mat) : (forall c, c_ok c -> wf (c_n c) (f c)) -> wf (len cs) (block_diag [seq (c_n c, f c) | c <- cs]).
  move=> hf; have <- : total [seq (c_n c, f c) | c <- cs] = len cs by rewrite -map_comp.
  apply: wf_block_diag; apply/(all_nthP (0%N, [::])) => i; rewrite size_map => li.
  by rewrite (nth_map ccdflt) //; apply: hf; apply: ok.
have wlx : wf (len cs) lx by apply: wf2 => c /c_lxz [_ _ _ []].
have wlz : wf (len cs) lz by apply: wf2 => c /c_lxz [_ _ _ []].
have es : c_set_logical_ops_xz (stack_base cs) lx lz true = Some (of_q (stack_base cs)
   (QCode (q_n (c_q (stack_base cs))) (q_mat (c_q (stack_base cs))) (q_sub (c_q (stack_base cs))) (q_stab (c_q (stack_base cs)))
     (q_gauge (c_q (stack_base cs))) (Some (bdiag (len cs) (len cs) lx lz)) (Some (q_dimension (c_q (stack_base cs)))))).
  by rewrite /c_set_logical_ops_xz /c_set_logical_ops [c_n (stack_base cs)]/= e1.
have [ok' el sx sz lb2] := set_xz_ok okc wlx wlz es.
eexists; split; [reflexivity | exact: ok' | by [] | by [] |].
have ed' : c_dimension (of_q (stack_base cs) (QCode (q_n (c_q (stack_base cs))) (q_mat (c_q (stack_base cs))) (q_sub (c_q (stack_base cs))) (q_stab (c_q (stack_base cs)))
     (q_gauge (c_q (stack_base cs))) (Some (bdiag (len cs) (len cs) lx lz)) (Some (q_dimension (c_q (stack_base cs)))))) = sumn [seq c_dimension c | c <- cs].
  by rewrite [LHS]/c_dimension /= -c_dimension_q.
split; [exact: ed' | | by rewrite ed'].
have [wq _ _ _ _] := okq.
by have [_ ->] := counts_unique wq (c_counts ok') (c_counts okc).
Qed.

(* distances *)
Lemma c_stack_min T cs inherit c d : (forall i, (i < size cs)%N -> c_ok (nc cs i)) -> c_stack cs inherit = Some c ->
  is_min_of T (c_n c) (c_mat c) d <->
  (exists2 i, (i < size cs)%N & is_min_of T (c_n (nc cs i)) (c_mat (nc cs i)) d) /\
  (forall i v, (i < size cs)%N -> nontrivial (c_n (nc cs i)) (c_mat (nc cs i)) v -> of_type T (c_n (nc cs i)) v ->
     (d <= qwt (c_n (nc cs i)) v)%N).
Proof.
move=> ok e; have [c' [e' _ [en ex ez] _ _]] := c_stack_ok inherit ok; move: e'; rewrite e => -[ec]; subst c'.
have [wX wZ] := stack_wf ok; have wps := parts_wf ok.
have wS : wf (len cs + len cs) (stack_mat (parts cs)) by rewrite -len_parts; apply: wf_stack_mat.
rewrite /c_mat en ex ez; apply: iff_trans (min_of_eqmx _ _ (wf_css wX wZ) wS (sp_perm _ (stack_perm ok))) _.
rewrite -len_parts; apply: iff_trans (stack_min _ _ wps) _; rewrite size_map.
split=> -[[i li h] m]; (split; first by exists i => //; move: h; rewrite nth_parts).
  by move=> j v lj; have := m j v lj; rewrite nth_parts.
by move=> j v lj; have := m j v lj; rewrite nth_parts.
Qed.

(* ---------------------------------------------------------------------------- concatenation *)
Lemma mull_bdiag n k (A B P Q : mat) : wf k A -> wf k B -> size P = k -> size Q = k -> wf n P -> wf n Q ->
  mull (n + n) (bdiag k k A B) (bdiag n n P Q) = bdiag n n (mull n A P) (mull n B Q).
Proof.
move=> wA wB sP sQ wP wQ; apply: (@mx_inj _ (size A + size B) (n + n)).
- by rewrite size_mull size_bdiag.
- by rewrite size_bdiag !size_mull.
- exact: wf_mull.
- by apply: wf_bdiag; apply: wf_mull.
rewrite (@mx_mull _ _ (k + k)) ?size_bdiag ?sP ?sQ //; last exact: wf_bdiag.
rewrite !mx_bdiag ?size_mull ?wf_mull // mulmx_block !mulmx0 !mul0mx !addr0 !add0r.
by rewrite -!(@mx_mull _ _ k).
Qed.

Lemma permute_bdiag n k w (P Q : mat) : size P = k -> size Q = k -> all (fun i => i < k)%N w ->
  permute_logs w k (bdiag n n P Q) = bdiag n n [seq nth [::] P i | i <- w] [seq nth [::] Q i | i <- w].
Proof.
move=> sP sQ /allP hw; rewrite /permute_logs /bdiag take_size_cat ?size_map // drop_size_cat ?size_map // -!map_comp.
by congr (_ ++ _); apply/eq_in_map => i /hw li /=; rewrite (nth_map [::]) ?sP ?sQ.
Qed.

Lemma c_stacked c b : c_ok c -> (0 < b)%N ->
  exists c1, [/\ (if (1 < b)%N then c_stack (nseq b c) true else Some c) = Some c1, c_ok c1,
                 c_sub c1 = c_sub c
               & [/\ c_n c1 = (b * c_n c)%N, c_dimension c1 = (b * c_dimension c)%N
                   & c_gauge_dimension c1 = (b * c_gauge_dimension c)%N]].
Proof.
move=> ok b0; have [b1 | b1] := ltnP 1 b; last first.
  have -> : b = 1%N by lia.
  by exists c; split=> //; split; rewrite ?mul1n.
have nb i : (i < size (nseq b c))%N -> c_ok (nc (nseq b c) i) by rewrite size_nseq => li; rewrite nth_nseq li.
have sm (f : csscode F -> nat) : sumn [seq f x | x <- nseq b c] = (b * f c)%N by rewrite map_nseq sumn_nseq mulnC.
have [c1 [e1 ok1 [en _ _] es [ed eg _]]] := c_stack_ok true nb.
by exists c1; split=> //; [rewrite es has_nseq b0 | split; rewrite ?en ?ed ?eg sm].
Qed.

Lemma c_dim_set_logs c l : c_ok c -> c_ok (c_set_logs c l) -> c_dimension (c_set_logs c l) = c_dimension c.
Proof.
move=> ok ok'; have [[wq _ _ _ _] _ _ _ _] := ok.
by have [-> _] := counts_unique wq (c_counts ok') (c_counts ok).
Qed.

Lemma set_logs_ok c lx lz k : c_ok c -> k = c_dimension c -> size lx = k -> size lz = k ->
  logical_basis (c_n c) k (css_mat (c_n c) (c_x c) (c_z c)) (bdiag (c_n c) (c_n c) lx lz) ->
  let c' := c_set_logs c (bdiag (c_n c) (c_n c) lx lz) in
  [/\ c_ok c', c_dimension c' = k, c_get_logical_ops c' false = Some (bdiag (c_n c) (c_n c) lx lz),
      c_get_logical_ops_pauli c' true = Some lx & c_get_logical_ops_pauli c' false = Some lz].
Proof.
move=> ok ek sx sz lb c'; have [[wq h1 h2 h3 h4] wX wZ hs hl] := ok.
have [[sL wL _] _] := lb; have [w1 w2] := wf_bdiag_inv wL.
have ok' : c_ok c'.
  split=> //=; last by move=> l [<-]; exists lx, lz; rewrite sx sz.
  split=> //= l [<-]; exists k, (c_gauge_dimension c); rewrite ek; split; last exact: c_counts.
  by rewrite -ek.
have ed : c_dimension c' = k by rewrite c_dim_set_logs.
by split=> //; rewrite /c_get_logical_ops_pauli ed /= sL eqxx ?(bdiag_take _ w1 sx) ?(bdiag_drop _ _ sx).
Qed.

Lemma c_concat_core_ok (inner outer : csscode F) lx lz (inherit : bool) : c_ok inner -> c_ok outer ->
  c_dimension inner = c_n outer ->
  c_get_logical_ops_pauli inner true = Some lx -> c_get_logical_ops_pauli inner false = Some lz ->
  let n := c_n inner in
  exists c, [/\ c_concat_core inner outer inherit = Some c, c_ok c, c_n c = n,
     c_x c = c_x inner ++ mull n (c_x outer) lx /\ c_z c = c_z inner ++ mull n (c_z outer) lz
   & [/\ c_dimension c = c_dimension outer, c_gauge_dimension c = (c_gauge_dimension inner + c_gauge_dimension outer)%N,
         c_sub c = false <-> commuting n (css_mat n (c_x c) (c_z c)),
         c_sub inner = false -> c_sub outer = false -> c_sub c = false
       & inherit -> let L := bdiag n n (mull n (c_lx outer) lx) (mull n (c_lz outer) lz) in
           c_get_logical_ops c false = Some L /\ logical_basis n (c_dimension c) (css_mat n (c_x c) (c_z c)) L]].
Proof.
move=> oki oko ek ex ez n.
have [e1 e2 eL [wx wz] [sx sz lb]] := c_lxz oki; rewrite ex in e1; rewrite ez in e2; case: e1 e2 => e1 [e2].
rewrite -e1 -e2 ek in eL wx wz sx sz lb.
have [f1 f2 eK [vx vz] [tx tz lbo]] := c_lxz oko.
have [[wqi ci _ _ _] wXi wZi _ _] := oki; have [[wqo co _ _ _] wXo wZo _ _] := oko.
set k := c_n outer in ek sx sz lb wXo wZo vx vz lbo wqo co eK.
pose X := c_x inner ++ mull n (c_x outer) lx; pose Z := c_z inner ++ mull n (c_z outer) lz.
pose M := css_mat n (c_x inner) (c_z inner) ++ map (enc n (bdiag n n lx lz)) (css_mat k (c_x outer) (c_z outer)).
have eM : map (enc n (bdiag n n lx lz)) (css_mat k (c_x outer) (c_z outer)) = css_mat n (mull n (c_x outer) lx) (mull n (c_z outer) lz).
  by rewrite -mull_enc /css_mat mull_bdiag.
have pe : perm_eq (css_mat n X Z) M by rewrite /M eM; apply: bdiag_cat.
have wX : wf n X by rewrite wf_cat wXi wf_mull.
have wZ : wf n Z by rewrite wf_cat wZi wf_mull.
have wM : wf (n + n) (css_mat n X Z) by apply: wf_css.
have wM' : wf (n + n) M by rewrite wf_cat wqi /= wf_enc.
have hco : counts k (css_mat k (c_x outer) (c_z outer)) (c_dimension outer) (c_gauge_dimension outer) by apply: c_counts.
have hci : counts n (css_mat n (c_x inner) (c_z inner)) k (c_gauge_dimension inner) by rewrite -ek; apply: c_counts.
have hc : counts n (css_mat n X Z) (c_dimension outer) (c_gauge_dimension inner + c_gauge_dimension outer).
  apply: (counts_eqmx wM' wM (eqmx_sym (sp_perm _ pe))); exact: (concat_counts lb wqi wqo hci hco).
pose code := mkcss n X Z None.
have okc : c_ok code by apply: c_ok_mk.
have ed : c_dimension code = c_dimension outer by have [] := counts_unique wM (c_counts okc) hc.
have eg : c_gauge_dimension code = (c_gauge_dimension inner + c_gauge_dimension outer)%N.
  by have [] := counts_unique wM (c_counts okc) hc.
have hsub : c_sub code = false <-> commuting n (css_mat n X Z).
  by rewrite css_commP // -css_manyP //.
have hcom : c_sub inner = false -> c_sub outer = false -> c_sub code = false.
  move=> si so; apply/hsub => u v hu hv; have := concat_comm lb wqi wqo (ci si) (co so).
  by apply; rewrite -(perm_mem pe).
have lbc : logical_basis n (c_dimension code) (css_mat n X Z) (bdiag n n (mull n (c_lx outer) lx) (mull n (c_lz outer) lz)).
  rewrite ed; apply/(logical_perm _ _ _ pe); have hl := concat_logs lb wqi wqo lbo.
  have e : map (enc n (bdiag n n lx lz)) (bdiag k k (c_lx outer) (c_lz outer)) = bdiag n n (mull n (c_lx outer) lx) (mull n (c_lz outer) lz).
    by rewrite -mull_enc mull_bdiag.
  rewrite -e; exact: hl.
rewrite /c_concat_core ex ez -/n -/X -/Z -/code; case: inherit => /=; last by exists code; split.
rewrite eK eL mull_bdiag //.
have [ok' ed' el' _ _] := set_logs_ok okc erefl (etrans (size_mull _ _ _) (etrans tx (esym ed)))
    (etrans (size_mull _ _ _) (etrans tz (esym ed))) lbc.
eexists; split; [reflexivity | exact: ok' | by [] | by [] |].
split; [by rewrite [LHS]ed' | | by [] | by [] | by move=> _; rewrite [c_dimension _]ed'].
by have [_ ->] := counts_unique wM (c_counts ok') hc.
Qed.

Theorem c_concatenate_ok (inner outer : csscode F) wiring (inherit : bool) :
  let w := if wiring is Some w then w else default_wiring (c_n outer) (c_dimension inner) in
  c_ok inner -> c_ok outer -> (0 < c_dimension inner)%N -> (0 < c_n outer)%N -> (0 < size w)%N ->
  (c_dimension inner %| size w)%N -> (c_n outer %| size w)%N -> perm_eq w (iota 0 (size w)) ->
  let bi := (size w %/ c_dimension inner)%N in let bo := (size w %/ c_n outer)%N in
  exists c inner1 outer1 st, let n := c_n c in
    let px := [seq nth [::] (c_lx inner1) i | i <- w] in let pz := [seq nth [::] (c_lz inner1) i | i <- w] in
    [/\ c_concatenate inner outer wiring inherit = Some (c, st),
        (if (1 < bi)%N then c_stack (nseq bi inner) true else Some inner) = Some inner1,
        (if (1 < bo)%N then c_stack (nseq bo outer) true else Some outer) = Some outer1 & c_ok inner1 /\ c_ok outer1] /\
    [/\ st = (if (1 < bi)%N then inner else c_set_logs inner (bdiag n n px pz), outer),
        c_n c = c_n inner1, c_dimension inner1 = size w & c_n outer1 = size w] /\
    [/\ c_ok c, c_n c = (bi * c_n inner)%N, c_dimension c = (bo * c_dimension outer)%N,
        c_gauge_dimension c = (bi * c_gauge_dimension inner + bo * c_gauge_dimension outer)%N
      & (c_sub c = false <-> commuting n (css_mat n (c_x c) (c_z c))) /\ (c_sub inner = false -> c_sub outer = false -> c_sub c = false)] /\
    [/\ logical_basis n (size w) (css_mat n (c_x inner1) (c_z inner1)) (bdiag n n px pz),
        c_x c = c_x inner1 ++ mull n (c_x outer1) px, c_z c = c_z inner1 ++ mull n (c_z outer1) pz
      & inherit -> let L := bdiag n n (mull n (c_lx outer1) px) (mull n (c_lz outer1) pz) in
           c_get_logical_ops c false = Some L /\ logical_basis n (c_dimension c) (css_mat n (c_x c) (c_z c)) L].
Proof.
move=> w oki oko k0 n0 w0 dk dn pw bi bo.
have bi0 : (0 < bi)%N by rewrite divn_gt0 //; apply: dvdn_leq.
have bo0 : (0 < bo)%N by rewrite divn_gt0 //; apply: dvdn_leq.
have [c1 [e1 ok1 s1 [n1 d1 g1]]] := c_stacked oki bi0.
have [c2 [e2 ok2 s2 [n2 d2 g2]]] := c_stacked oko bo0.
have d1' : c_dimension c1 = size w by rewrite d1 divnK.
have n2' : c_n c2 = size w by rewrite n2 divnK.
have [h1 h2 h3 [h4 h5] [h6 h7 h8]] := c_lxz ok1; rewrite d1' in h6 h7 h8.
have aw : all (fun i => i < size w)%N w by apply/allP => i; rewrite (perm_mem pw) mem_iota.
pose px := [seq nth [::] (c_lx c1) i | i <- w]; pose pz := [seq nth [::] (c_lz c1) i | i <- w].
have eP : permute_logs w (size w) (bdiag (c_n c1) (c_n c1) (c_lx c1) (c_lz c1)) = bdiag (c_n c1) (c_n c1) px pz.
  exact: permute_bdiag.
have lP : logical_basis (c_n c1) (size w) (css_mat (c_n c1) (c_x c1) (c_z c1)) (bdiag (c_n c1) (c_n c1) px pz).
  by rewrite -eP; apply: permuted_logs.
have [ok1' ed1 _ ex1 ez1] := set_logs_ok ok1 (esym d1') (size_map _ _ : size px = size w) (size_map _ _ : size pz = size w) lP.
have [c [ec okc en [ex ez] [ed eg hs hs' hl]]] := c_concat_core_ok inherit ok1' ok2 (etrans ed1 (esym n2')) ex1 ez1.
have en' : c_n c = c_n c1 by [].
exists c, c1, c2; eexists; rewrite en' /=; split.
  split; [| exact: e1 | exact: e2 | by []].
  rewrite /c_concatenate -/w k0 n0 /= (eqP dk) (eqP dn) /= -/bi -/bo e1 e2 h3 d1' eqxx aw /= eP ec.
  reflexivity.
split; first by split=> //; case: ifP => // hb; move: e1; rewrite hb => -[->].
split.
  have egi : c_gauge_dimension (c_set_logs c1 (bdiag (c_n c1) (c_n c1) px pz)) = c_gauge_dimension c1.
    by have [[wq _ _ _ _] _ _ _ _] := ok1; have [_ ->] := counts_unique wq (c_counts ok1') (c_counts ok1).
  split; rewrite ?ed ?d2 //; first by rewrite eg egi g1 g2.
  by split=> // si so; apply: hs'; rewrite /= ?s1 ?s2.
split=> // hi; have [a b] := hl hi; split=> //.
Qed.

(* ---------------------------------------------------------------------------- the promise of equal distances *)
Lemma min_exists T n (A : mat) (el : vec) (v : vec) : wf (n + n) A -> (forall y, y \in el) ->
  nontrivial n A v -> of_type T n v -> exists2 d, is_min_of T n A d & (d <= qwt n v)%N.
Proof.
move=> wA ael nv tv.
pose ntb (u : vec) := [&& size u == (n + n)%N, (rv (n + n) u <= scomp (sp (n + n) A :&: scomp (sp (n + n) A)))%MS
                        & ~~ (rv (n + n) u <= sp (n + n) A)%MS].
have ntP u : nontrivial n A u <-> ntb u.
  by rewrite nontrivialE //; split=> [[/eqP e h1 h2] | /and3P [/eqP e h1 h2]]; rewrite ?/ntb ?e ?h1 ?h2.
pose tb (u : vec) := if T is Some x then (if x then drop n u else take n u) == vzero F n else true.
have tP u : of_type T n u <-> tb u by rewrite /tb /of_type; case: (T) => [x|] //; split=> /eqP.
pose P d := has (fun u => [&& ntb u, tb u & qwt n u == d]) (product el (n + n)).
have inP u : nontrivial n A u -> of_type T n u -> P (qwt n u).
  move=> nu tu; apply/hasP; exists u; last by rewrite eqxx andbT; apply/andP; split; [apply/ntP | apply/tP].
  by have [su _ _] := nu; rewrite mem_product su eqxx; apply/allP => y _; apply: ael.
have ex : exists d, P d by exists (qwt n v); apply: inP.
case: (ex_minnP ex) => d /hasP [u _ /and3P [/ntP nu /tP tu /eqP eu]] m.
exists d; last by apply: m; apply: inP.
by split=> [|t nt tt]; [exists u | apply: m; apply: inP].
Qed.

Lemma stack_promise (el : vec) cs inherit c : (forall i, (i < size cs)%N -> c_ok (nc cs i)) -> c_stack cs inherit = Some c ->
  (forall y, y \in el) ->
  (forall i, (i < size cs)%N -> forall d, is_tdist true (c_n (nc cs i)) (c_mat (nc cs i)) d <-> is_tdist false (c_n (nc cs i)) (c_mat (nc cs i)) d) ->
  forall d, is_tdist true (c_n c) (c_mat c) d <-> is_tdist false (c_n c) (c_mat c) d.
Proof.
move=> ok e ael h d; rewrite -!min_tdist !(c_stack_min _ _ ok e).
have gen x y : (forall i, (i < size cs)%N -> forall d, is_tdist x (c_n (nc cs i)) (c_mat (nc cs i)) d <-> is_tdist y (c_n (nc cs i)) (c_mat (nc cs i)) d) ->
  (exists2 i, (i < size cs)%N & is_min_of (Some x) (c_n (nc cs i)) (c_mat (nc cs i)) d) /\
  (forall i v, (i < size cs)%N -> nontrivial (c_n (nc cs i)) (c_mat (nc cs i)) v -> of_type (Some x) (c_n (nc cs i)) v ->
     (d <= qwt (c_n (nc cs i)) v)%N) ->
  (exists2 i, (i < size cs)%N & is_min_of (Some y) (c_n (nc cs i)) (c_mat (nc cs i)) d) /\
  (forall i v, (i < size cs)%N -> nontrivial (c_n (nc cs i)) (c_mat (nc cs i)) v -> of_type (Some y) (c_n (nc cs i)) v ->
     (d <= qwt (c_n (nc cs i)) v)%N).
  move=> hxy [[i li mi] m]; split; first by exists i => //; apply/min_tdist/hxy => //; apply/min_tdist.
  move=> j v lj nv tv; have [_ wX wZ _ _] := ok _ lj.
  have [d' md le] := min_exists (wf_css wX wZ) ael nv tv; apply: leq_trans le.
  have [[u [nu tu <-]] _] := proj2 (min_tdist x _ _ _) (proj2 (hxy _ lj _) (proj1 (min_tdist _ _ _ _) md)).
  exact: m nu tu.
split; apply: gen => i li d'; first exact: h.
by rewrite h.
Qed.

(* ---------------------------------------------------------------------------- block diagonal matrices, row by row *)
Lemma block_diag_rows (ps : seq (nat * mat)) :
  block_diag ps = flatten (mkseq (fun i => let p := nth (0%N, [::]) ps i in let off := sumn (take i (map fst ps)) in
     map (fun r => nseq off 0 ++ r ++ nseq (total ps - off - p.1) 0) p.2) (size ps)).
Proof.
elim: ps => [|[n A] ps IH] //; rewrite [LHS]/= /bdiag IH /mkseq /=.
congr (_ ++ _); first by rewrite subn0 addKn.
rewrite map_flatten (iotaDl 1 0) -!map_comp; congr flatten; apply: eq_map => i /=; rewrite -map_comp; apply: eq_map => r /=.
by rewrite nseqD subnDl -!catA.
Qed.

(* codes without logical qudits have no nontrivial operators *)
Lemma no_nontrivial n (A : mat) g (v : vec) : wf (n + n) A -> counts n A 0 g -> ~ nontrivial n A v.
Proof.
move=> wA hc nv; have [sv _ _] := nv.
have lb : logical_basis n 0 A [::] by split=> //; split.
have [a [na _]] := proj1 (nontrivial_comb wA lb hc sv) nv; by apply: na; apply/rowP => -[].
Qed.
End Stack.
