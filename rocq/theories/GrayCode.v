(* Exhaustive search for the minimum weight: model of qldpc/codes/distance.py:155-157, 204-293 and proofs about it. *)
From Coq Require Import NArith ZArith Arith List Bool Lia ZifyN ZifyNat.
From Verif Require Import BitWeight Pack.
Import ListNotations.

(* ------------------------------------------------------------------------------------------------ model *)
(* distance.py:155-157 (_count_trailing_zeros): (val & -val).bit_length() - 1, for val > 0 *)
Definition ctz (val : Z) : nat := Z.to_nat (Z.log2 (Z.land val (- val))).

(* Python slices l[:k] and l[k:] of a list, with k possibly negative *)
Definition slice_to {A} (k : Z) (l : list A) : list A :=
  if (k <? 0)%Z then firstn (Z.to_nat (Z.of_nat (length l) + k)) l else firstn (Z.to_nat k) l.
Definition slice_from {A} (k : Z) (l : list A) : list A :=
  if (k <? 0)%Z then skipn (Z.to_nat (Z.of_nat (length l) + k)) l else skipn (Z.to_nat k) l.

Section Core.
(* rows of the array, elementwise xor of rows, weight of a row in the first (w0) and in all later (w1) evaluations *)
Context {V : Type} (zero : V) (xor : V -> V -> V) (w0 w1 : V -> N).

(* distance.py:261-262, 266-267: array = np.vstack([array, array ^ op]) for each op *)
Definition vstack (arr : list V) (op : V) : list V := arr ++ map (fun row => xor row op) arr.

(* min(initial = m) over the weights *)
Definition minimum (w : V -> N) (m : N) (arr : list V) : N := fold_left N.min (map w arr) m.

(* distance.py:288-291: for si in range(1, 2 ** len(int_stabilizers)) *)
Definition step (w : V -> N) (ops : list V) (st : list V * N) (i : nat) : list V * N :=
  let arr := map (fun row => xor row (nth (ctz (Z.of_nat i)) ops zero)) (fst st) in
  (arr, minimum w (snd st) arr).
Definition inner_loop (stabs : list V) (st : list V * N) : list V * N :=
  fold_left (step w1 stabs) (seq 1 (2 ^ length stabs - 1)) st.
(* distance.py:283-291: for li in range(1, 2 ** len(int_logical_ops)) *)
Definition outer_loop (logs stabs : list V) (st : list V * N) : list V * N :=
  fold_left (fun st li => inner_loop stabs (step w1 logs st li)) (seq 1 (2 ^ length logs - 1)) st.

(* distance.py:252-293, with k = num_vectorized_ops and initial = num_bits.  The minimum of an empty or nonempty array of
   weights starting at `initial` is taken in the type of the weights of the first evaluation, which has M0 values:
   numpy raises OverflowError if `initial` does not fit (None) *)
Definition search (M0 : N) (num_bits : nat) (k : Z) (logs stabs : list V) : option N :=
  let array := fold_left vstack (slice_to k stabs) [zero] in
  let S := Z.of_nat (length stabs) in
  let array' := if (k >? S)%Z then fold_left vstack (slice_to (k - S) logs) array else array in
  let logs' := if (k >? S)%Z then slice_from (k - S) logs else logs in
  let stabs' := slice_from k stabs in
  if (N.of_nat num_bits <? M0)%N
  then let m := minimum w0 (N.of_nat num_bits) (skipn (2 ^ length stabs) array') in
       Some (snd (outer_loop logs' stabs' (array', m)))
  else None.
End Core.

(* distance.py:219-293 (get_distance_quantum): `nb` is the number of columns of logical_ops; rows are lists of bits *)
Definition get_distance_quantum (be : backend) (homogeneous : bool) (block_size : nat) (nb : nat)
    (logical_ops stabilizers : list (list bool)) : option N :=
  let weight := if homogeneous then hamming_fn be else symplectic_fn be in
  let prep := if homogeneous then (fun r => r) else riffle in
  let int_logical_ops := map (fun r => to_ints (prep r)) logical_ops in
  let int_stabilizers := map (fun r => to_ints (prep r)) stabilizers in
  let W := num_words nb in
  let k := Z.min (Z.of_nat block_size + 1 - Z.of_nat W) (Z.of_nat (length logical_ops + length stabilizers)) in
  search (repeat 0%N W) xorw (fun row => inplace_rowsum (first_modulus be) (map weight row))
         (fun row => inplace_rowsum w64 (map weight row)) (first_modulus be) nb k int_logical_ops int_stabilizers.

(* distance.py:204-216 (get_distance_classical) *)
Definition get_distance_classical (be : backend) (block_size : nat) (nb : nat) (generators : list (list bool)) : option N :=
  get_distance_quantum be true block_size nb generators [].

(* ---------------------------------------------------------------------------------------- specification *)
(* the sum of the rows selected by a list of bits *)
Fixpoint combo (nb : nat) (sel : list bool) (ops : list (list bool)) : list bool :=
  match sel, ops with
  | b :: sel', op :: ops' => if b then xorl op (combo nb sel' ops') else combo nb sel' ops'
  | _, _ => repeat false nb
  end.

(* ------------------------------------------------------------------------------------------------ proofs *)
Lemma ctz_pow2 n : ctz (Z.of_nat (2 ^ n)) = n.
Proof.
  unfold ctz. replace (Z.of_nat (2 ^ n)) with (2 ^ Z.of_nat n)%Z by (rewrite Nat2Z.inj_pow; reflexivity).
  assert (e : Z.land (2 ^ Z.of_nat n) (- 2 ^ Z.of_nat n) = (2 ^ Z.of_nat n)%Z).
  { apply Z.bits_inj'. intros i hi. rewrite Z.land_spec, Z.pow2_bits_eqb by lia.
    destruct (Z.eqb_spec (Z.of_nat n) i) as [<- | ne]; [|reflexivity]. cbn [andb].
    replace (- 2 ^ Z.of_nat n)%Z with (-1 * 2 ^ Z.of_nat n)%Z by lia. rewrite Z.mul_pow2_bits by lia. now rewrite Z.sub_diag. }
  rewrite e, Z.log2_pow2 by lia. lia.
Qed.

Lemma ctz_add n i : (0 < i < 2 ^ n)%nat -> ctz (Z.of_nat (2 ^ n + i)) = ctz (Z.of_nat i).
Proof.
  intro h. unfold ctz. do 2 f_equal.
  assert (hz : (0 < Z.of_nat i < 2 ^ Z.of_nat n)%Z).
  { split; [lia|]. apply Z.lt_le_trans with (Z.of_nat (2 ^ n)); [lia|]. rewrite Nat2Z.inj_pow. reflexivity. }
  rewrite Nat2Z.inj_add. replace (Z.of_nat (2 ^ n)) with (2 ^ Z.of_nat n)%Z by (rewrite Nat2Z.inj_pow; reflexivity).
  set (x := Z.of_nat i) in *. set (k := Z.of_nat n) in *. assert (hk : (0 <= k)%Z) by lia. clearbody x k.
  assert (pos := Z.pow_pos_nonneg 2 k ltac:(lia) hk).
  assert (hm : forall y z j, (j < k)%Z -> (y mod 2 ^ k = z mod 2 ^ k)%Z -> Z.testbit y j = Z.testbit z j).
  { intros y z j hj e. rewrite <- (Z.mod_pow2_bits_low y k j), <- (Z.mod_pow2_bits_low z k j) by assumption. now rewrite e. }
  assert (xk : forall j, (k <= j)%Z -> Z.testbit x j = false).
  { intros j hj. rewrite <- (Z.mod_small x (2 ^ k)) by lia. apply Z.mod_pow2_bits_high. lia. }
  apply Z.bits_inj'. intros j hj. rewrite !Z.land_spec.
  destruct (Z.lt_ge_cases j k) as [lt | ge].
  - f_equal; apply hm; try assumption.
    + replace (2 ^ k + x)%Z with (x + 1 * 2 ^ k)%Z by lia. apply Z.mod_add. lia.
    + replace (- (2 ^ k + x))%Z with (- x + (-1) * 2 ^ k)%Z by lia. apply Z.mod_add. lia.
  - rewrite (xk j ge). cbn [andb].
    replace j with ((j - k) + k)%Z by lia.
    rewrite <- !Z.div_pow2_bits by lia.
    replace (2 ^ k + x)%Z with (x + 1 * 2 ^ k)%Z by lia. rewrite Z.div_add, (Z.div_small x) by lia.
    replace (- (x + 1 * 2 ^ k))%Z with ((2 ^ k - x) + (-2) * 2 ^ k)%Z by lia. rewrite Z.div_add, (Z.div_small (2 ^ k - x)) by lia.
    change (0 + 1)%Z with 1%Z. change (0 + -2)%Z with (-2)%Z.
    destruct (Z.eq_dec (j - k) 0) as [-> | ne]; [reflexivity|].
    rewrite (Z.bits_above_log2 1) by (cbn; lia). reflexivity.
Qed.

Lemma seq_pow2 n : seq 1 (2 ^ S n - 1) = seq 1 (2 ^ n - 1) ++ 2 ^ n :: map (fun i => 2 ^ n + i) (seq 1 (2 ^ n - 1)).
Proof.
  assert (p : 0 < 2 ^ n) by (apply Nat.neq_0_lt_0, Nat.pow_nonzero; lia).
  cbn [Nat.pow]. replace (2 * 2 ^ n - 1) with ((2 ^ n - 1) + S (2 ^ n - 1)) by lia.
  rewrite seq_app. f_equal. replace (1 + (2 ^ n - 1)) with (2 ^ n) by lia. cbn [seq]. f_equal.
  generalize (2 ^ n - 1) as m. generalize (2 ^ n) as a. intros a m. revert a.
  assert (g : forall m s a, seq (a + s) m = map (fun i => a + i) (seq s m)).
  { clear. induction m as [|m IH]; intros s a; [reflexivity|]. cbn [seq map]. f_equal. rewrite <- IH. f_equal. lia. }
  intro a. rewrite <- g. f_equal. lia.
Qed.

Section Gray.
Context {V : Type} (zero : V) (xor : V -> V -> V) (w : V -> N) (ok : V -> Prop).
Hypothesis ok0 : ok zero.
Hypothesis okx : forall a b, ok a -> ok b -> ok (xor a b).
Hypothesis xA : forall a b c, ok a -> ok b -> ok c -> xor a (xor b c) = xor (xor a b) c.
Hypothesis xC : forall a b, ok a -> ok b -> xor a b = xor b a.
Hypothesis x0 : forall a, ok a -> xor a zero = a.
Hypothesis xx : forall a, ok a -> xor a a = zero.

Notation mini := (minimum w).
(* sum of the selected operators *)
Fixpoint csum (sel : list bool) (ops : list V) : V :=
  match sel, ops with
  | b :: sel', op :: ops' => if b then xor op (csum sel' ops') else csum sel' ops'
  | _, _ => zero
  end.

Lemma ok_csum ops : Forall ok ops -> forall sel, ok (csum sel ops).
Proof.
  induction 1 as [|o ops ho hops IH]; intros [|b sel]; cbn; try assumption. destruct b; [apply okx|]; auto.
Qed.

Lemma csum_app ops1 ops2 sel1 sel2 : Forall ok ops1 -> Forall ok ops2 -> length sel1 = length ops1 ->
  csum (sel1 ++ sel2) (ops1 ++ ops2) = xor (csum sel1 ops1) (csum sel2 ops2).
Proof.
  intros h1 h2. revert sel1. induction h1 as [|o ops ho hops IH]; intros [|b sel] len; try discriminate len.
  - cbn. rewrite xC, x0; auto using ok_csum.
  - cbn [app csum]. injection len as len. rewrite IH by assumption.
    destruct b; [|reflexivity]. apply xA; auto using ok_csum.
Qed.

(* closure under differences *)
Lemma xCA a b c : ok a -> ok b -> ok c -> xor a (xor b c) = xor b (xor a c).
Proof. intros. rewrite xA, (xC a b), <- xA by auto. reflexivity. Qed.
Lemma xxA a b : ok a -> ok b -> xor a (xor a b) = b.
Proof. intros. rewrite xA, xx, xC, x0 by auto. reflexivity. Qed.

Lemma csum_xor ops : Forall ok ops -> forall s t, length s = length t ->
  csum (xorl s t) ops = xor (csum s ops) (csum t ops).
Proof.
  induction 1 as [|o ops ho hops IH]; intros [|a s] [|b t] len; try discriminate len;
    try (cbn; rewrite x0 by assumption; reflexivity).
  injection len as len. change (xorl (a :: s) (b :: t)) with (xorb a b :: xorl s t).
  cbn [csum]. rewrite IH by assumption. assert (os := ok_csum ops hops s). assert (ot := ok_csum ops hops t).
  destruct a, b; cbn [xorb]; rewrite <- ?xA by auto; try reflexivity.
  - rewrite (xCA (csum s ops) o), xxA by auto. reflexivity.
  - rewrite (xCA (csum s ops) o) by auto. reflexivity.
Qed.

(* the minimum over an array *)
Lemma minimum_le m arr : (mini m arr <= m)%N.
Proof.
  revert m. induction arr as [|r arr IH]; intro m; [cbn; lia|]. specialize (IH (N.min m (w r))). unfold minimum in *. cbn in *. lia.
Qed.
Lemma minimum_in m arr r : In r arr -> (mini m arr <= w r)%N.
Proof.
  revert m. induction arr as [|a arr IH]; intros m h; [destruct h|]. destruct h as [-> | h].
  - pose proof (minimum_le (N.min m (w r)) arr). unfold minimum in *. cbn in *. lia.
  - apply IH. assumption.
Qed.
Lemma minimum_or m arr : mini m arr = m \/ exists r, In r arr /\ mini m arr = w r.
Proof.
  revert m. induction arr as [|a arr IH]; intro m; [now left|].
  change (mini m (a :: arr)) with (mini (N.min m (w a)) arr).
  destruct (IH (N.min m (w a))) as [-> | [r [hr ->]]].
  - destruct (N.min_spec m (w a)) as [[_ ->] | [_ ->]]; [now left|]. right. exists a. split; [now left|reflexivity].
  - right. exists r. split; [now right|reflexivity].
Qed.

(* m' is the minimum of m and the weights of the rows satisfying P *)
Definition is_min (P : V -> Prop) (m m' : N) : Prop :=
  (m' <= m)%N /\ (forall r, P r -> (m' <= w r)%N) /\ (m' = m \/ exists r, P r /\ m' = w r).

Lemma is_min_trans (P Q : V -> Prop) m1 m2 m3 : is_min P m1 m2 -> is_min Q m2 m3 -> is_min (fun r => P r \/ Q r) m1 m3.
Proof.
  intros (a1 & a2 & a3) (b1 & b2 & b3). split; [lia|]. split.
  - intros r [h | h]; [specialize (a2 r h); lia | auto].
  - destruct b3 as [-> | [r [h ->]]]; [|right; exists r; auto]. destruct a3 as [-> | [r [h ->]]]; [now left|]. right; exists r; auto.
Qed.
Lemma is_min_ext (P Q : V -> Prop) m m' : (forall r, P r <-> Q r) -> is_min P m m' -> is_min Q m m'.
Proof.
  intros e (a1 & a2 & a3). split; [assumption|]. split.
  - intros r h. apply a2, e, h.
  - destruct a3 as [-> | [r [h ->]]]; [now left|]. right; exists r; split; [now apply e|reflexivity].
Qed.
Lemma is_min_arr m arr : is_min (fun r => In r arr) m (mini m arr).
Proof. split; [apply minimum_le|]. split; [intros r; apply minimum_in|]. apply minimum_or. Qed.

(* ---- one Gray-code loop ---- *)
(* `visit` is what happens at each visited array; the loop state is the array and the minimum *)
Section Loop.
Variable (ops : list V).
Hypothesis okops : Forall ok ops.
Variable (visit : list V * N -> list V * N).
(* rows seen at an array shifted by v, and its final shift *)
Variable (base : list V).
Hypothesis okbase : Forall ok base.
Variable (extra : list V).
Hypothesis okextra : Forall ok extra.
Definition shifted (v : V) : list V := map (fun row => xor row v) base.
(* the rows of the array shifted by v and any combination of the extra operators *)
Definition seen (v : V) (r : V) : Prop :=
  exists row t, In row base /\ length t = length extra /\ r = xor row (xor v (csum t extra)).
Hypothesis visit_ok : forall v m, ok v -> exists t m', length t = length extra /\
  visit (shifted v, m) = (shifted (xor v (csum t extra)), m') /\ is_min (seen v) m m'.

Definition lstep (st : list V * N) (i : nat) : list V * N :=
  visit (map (fun row => xor row (nth (ctz (Z.of_nat i)) ops zero)) (fst st), snd st).

Lemma shift_shifted v o : ok v -> ok o -> map (fun row => xor row o) (shifted v) = shifted (xor v o).
Proof.
  intros hv ho. unfold shifted. rewrite map_map. apply map_ext_in. intros r hr. rewrite Forall_forall in okbase. rewrite xA; auto.
Qed.

(* after the loop over the first n operators, started with the array shifted by v: every nonempty selection has been seen *)
Definition nonzero (s : list bool) := In true s.

Lemma csum_snoc u : length u < length ops ->
  csum (u ++ [true]) ops = xor (csum u ops) (nth (length u) ops zero) /\ csum (u ++ [false]) ops = csum u ops.
Proof.
  revert u. clear - okops ok0 okx xA xC x0. induction okops as [|o os ho hos IH]; intros u lu; [cbn in lu; lia|].
  destruct u as [|b u].
  - cbn. split; [|destruct os; reflexivity]. rewrite (xC zero o), x0 by auto. destruct os; rewrite ?x0; auto.
  - cbn [app csum length nth] in *. destruct (IH hos u ltac:(lia)) as [e1 e2].
    assert (oo : ok (nth (length u) os zero)).
    { rewrite Forall_forall in hos. apply hos, nth_In. lia. }
    rewrite e1, e2. split; [|reflexivity]. destruct b; [|reflexivity]. apply xA; auto. now apply ok_csum.
Qed.

Lemma csum_none ops' : csum (repeat false (length ops')) ops' = zero.
Proof. induction ops' as [|o os IH]; [reflexivity|]. cbn. apply IH. Qed.

(* what is seen does not depend on a shift by a combination of the extra operators *)
Lemma seen_extra v r t0 : ok v -> length t0 = length extra -> seen (xor v (csum t0 extra)) r <-> seen v r.
Proof.
  intros hv lt0. assert (o0 := ok_csum extra okextra t0).
  split; intros (row & t & h1 & h2 & ->); exists row, (xorl t0 t); (split; [assumption|]); (split; [rewrite xorl_length; congruence|]);
    f_equal; assert (o1 := ok_csum extra okextra t); rewrite csum_xor by congruence; rewrite <- ?xA by auto; try reflexivity.
  rewrite xxA by auto. reflexivity.
Qed.

Lemma loop_lemma : forall n v m, n <= length ops -> ok v ->
  exists s t m', length s = n /\ length t = length extra /\
    fold_left lstep (seq 1 (2 ^ n - 1)) (shifted v, m) = (shifted (xor v (xor (csum s ops) (csum t extra))), m') /\
    is_min (fun r => exists u, length u = n /\ nonzero u /\ seen (xor v (csum u ops)) r) m m'.
Proof.
  assert (cs : forall u, ok (csum u ops)) by (intro; now apply ok_csum).
  assert (ce : forall u, ok (csum u extra)) by (intro; now apply ok_csum).
  induction n as [|n IH]; intros v m hn hv.
  - cbn. exists [], (repeat false (length extra)), m.
    split; [reflexivity|]. split; [now rewrite repeat_length|]. split.
    + rewrite csum_none. destruct ops; cbn; rewrite !x0 by auto; reflexivity.
    + split; [lia|]. split; [|now left]. intros r (u & lu & nz & _). destruct u; [destruct nz|discriminate lu].
  - rewrite seq_pow2, fold_left_app. cbn [fold_left].
    destruct (IH v m ltac:(lia) hv) as (s & t & m1 & ls & lt & -> & min1).
    set (o := nth n ops zero).
    assert (oo : ok o) by (rewrite Forall_forall in okops; apply okops, nth_In; lia).
    assert (ov : ok (xor v (xor (csum s ops) (csum t extra)))) by auto.
    unfold lstep at 2. cbn [fst snd]. rewrite ctz_pow2. fold o. rewrite shift_shifted by auto.
    set (v' := xor (xor v (xor (csum s ops) (csum t extra))) o).
    assert (ov' : ok v') by (unfold v'; auto).
    destruct (visit_ok v' m1 ov') as (t2 & m2 & lt2 & -> & min2).
    assert (f : forall st, fold_left lstep (map (fun i => 2 ^ n + i) (seq 1 (2 ^ n - 1))) st = fold_left lstep (seq 1 (2 ^ n - 1)) st).
    { assert (g : Forall (fun i => 0 < i < 2 ^ n) (seq 1 (2 ^ n - 1))).
      { apply Forall_forall. intros i hi. apply in_seq in hi. lia. }
      clear -g. induction g as [|i l hi hl IHl]; intro st; [reflexivity|]. cbn [map fold_left].
      rewrite IHl. f_equal. unfold lstep. now rewrite ctz_add. }
    rewrite f. clear f.
    destruct (IH (xor v' (csum t2 extra)) m2 ltac:(lia) ltac:(auto)) as (s3 & t3 & m3 & ls3 & lt3 & -> & min3).
    (* the array is shifted by v, a selection ending with the n-th operator, and extra operators *)
    assert (sn : forall u, length u = n -> xor (csum u ops) o = csum (u ++ [true]) ops).
    { intros u lu. destruct (csum_snoc u) as [e _]; [lia|]. rewrite e, lu. reflexivity. }
    assert (ev : forall u, length u = n -> xor v' (csum u ops) = xor (xor v (csum (xorl s u ++ [true]) ops)) (csum t extra)).
    { intros u lu. rewrite <- sn by (rewrite xorl_length; congruence). rewrite csum_xor by (auto; congruence). unfold v'.
      rewrite <- !xA by auto. do 2 f_equal. rewrite (xC (csum t extra)), <- xA by auto. rewrite (xCA o) by auto. reflexivity. }
    exists (xorl s s3 ++ [true]), (xorl (xorl t t2) t3), m3.
    split; [rewrite app_length, xorl_length by congruence; cbn; lia|].
    split; [rewrite !xorl_length; rewrite ?xorl_length; congruence|]. split.
    + f_equal. f_equal. rewrite !csum_xor by (rewrite ?xorl_length; congruence || assumption).
      rewrite xA, <- (xA v'), (xC (csum t2 extra)), (xA v'), ev by auto. rewrite <- !xA by auto. reflexivity.
    + assert (mm := is_min_trans _ _ _ _ _ (is_min_trans _ _ _ _ _ min1 min2) min3). eapply is_min_ext; [|exact mm].
      intro r. cbv beta. split.
      * intros [[(u & lu & nz & h) | h] | (u & lu & nz & h)].
        -- exists (u ++ [false]). split; [rewrite app_length; cbn; lia|]. split; [apply in_or_app; now left|].
           destruct (csum_snoc u) as [_ ->]; [lia|assumption].
        -- exists (s ++ [true]). split; [rewrite app_length; cbn; lia|]. split; [apply in_or_app; right; now left|].
           rewrite <- (seen_extra _ _ t) by auto. rewrite <- sn by assumption. rewrite <- !xA by auto. rewrite (xC o) by auto.
           unfold v' in h. rewrite !xA by auto. rewrite !xA in h by auto. exact h.
        -- exists (xorl s u ++ [true]). split; [rewrite app_length, xorl_length by congruence; cbn; lia|].
           split; [apply in_or_app; right; now left|].
           rewrite <- (seen_extra _ _ t), <- ev by auto. rewrite <- (seen_extra _ _ t2) by auto.
           rewrite <- xA, (xC (csum t2 extra)), xA in h by auto. exact h.
      * intros (u' & lu & nz & h).
        destruct (exists_last (l := u') ltac:(now destruct u')) as (u & b & ->). rewrite app_length in lu. cbn in lu.
        assert (lu' : length u = n) by lia.
        destruct b.
        -- destruct (in_dec Bool.bool_dec true (xorl s u)) as [nz' | z'].
           ++ right. exists (xorl s u). split; [rewrite xorl_length; congruence|]. split; [assumption|].
              rewrite <- xA, (xC (csum t2 extra)), xA by auto. rewrite (seen_extra _ _ t2) by auto.
              rewrite ev by (rewrite xorl_length; congruence). rewrite (seen_extra _ _ t) by auto.
              replace (xorl s (xorl s u)) with u; [assumption|].
              apply nth_ext with (d := false) (d' := false); [rewrite !xorl_length; rewrite ?xorl_length; congruence|].
              intros i _. rewrite !nth_xorl by (rewrite ?xorl_length; congruence). now destruct (nth i s false), (nth i u false).
           ++ left. right. assert (us : u = s).
              { apply nth_ext with (d := false) (d' := false); [congruence|]. intros i hi.
                assert (hx := nth_xorl s u i ltac:(congruence)).
                assert (nth i (xorl s u) false = false).
                { destruct (nth i (xorl s u) false) eqn:e; [|reflexivity]. exfalso. apply z'. rewrite <- e. apply nth_In.
                  rewrite xorl_length; congruence. }
                rewrite H in hx. now destruct (nth i s false), (nth i u false). }
              subst u. rewrite <- sn in h by assumption. rewrite <- (seen_extra _ _ t) in h by auto.
              rewrite <- !xA in h by auto. rewrite (xC o) in h by auto. unfold v'. rewrite <- !xA by auto. exact h.
        -- left. left. exists u. split; [assumption|]. split.
           ++ apply in_app_or in nz. destruct nz as [nz | [nz | []]]; [assumption | discriminate nz].
           ++ destruct (csum_snoc u) as [_ e]; [lia|]. rewrite e in h. exact h.
Qed.
End Loop.

(* ---- the two nested loops ---- *)
Lemma inner_lemma stabs base : Forall ok stabs -> Forall ok base -> forall v m, ok v ->
  exists s m', length s = length stabs /\
    inner_loop zero xor w stabs (shifted base v, mini m (shifted base v)) = (shifted base (xor v (csum s stabs)), m') /\
    is_min (fun r => exists row t, In row base /\ length t = length stabs /\ r = xor row (xor v (csum t stabs))) m m'.
Proof.
  intros hs hb v m hv.
  assert (cs : forall u, ok (csum u stabs)) by (intro; now apply ok_csum).
  assert (vis : forall v m, ok v -> exists t m', length t = length (@nil V) /\
    (shifted base v, mini m (shifted base v)) = (shifted base (xor v (csum t [])), m') /\ is_min (seen base [] v) m m').
  { intros v1 m1 hv1. exists [], (mini m1 (shifted base v1)). split; [reflexivity|]. split.
    - cbn. now rewrite x0.
    - eapply is_min_ext; [|apply is_min_arr]. intro r. unfold shifted, seen. rewrite in_map_iff. split.
      + intros (row & <- & h). exists row, []. cbn. rewrite x0; auto.
      + intros (row & t & h & lt & ->). exists row. split; [|assumption]. destruct t; [|discriminate lt]. cbn. now rewrite x0. }
  destruct (loop_lemma stabs hs (fun st => (fst st, mini (snd st) (fst st))) base hb [] ltac:(constructor) vis
              (length stabs) v (mini m (shifted base v)) ltac:(lia) hv) as (s & t & m' & ls & lt & e & mn).
  exists s, m'. split; [assumption|]. split.
  - unfold inner_loop. unfold step. unfold lstep in e. cbn [fst snd] in e. rewrite e. f_equal. f_equal. destruct t; [|discriminate lt].
    cbn. rewrite x0; auto.
  - destruct (vis v m hv) as (t0 & m0 & _ & e0 & mn0). injection e0 as _ e0. rewrite <- e0 in mn0.
    eapply is_min_ext; [|exact (is_min_trans _ _ _ _ _ mn0 mn)]. intro r. cbv beta. unfold seen. split.
    + intros [(row & t1 & h & l1 & ->) | (u & lu & nz & row & t1 & h & l1 & ->)]; (destruct t1; [|discriminate l1]).
      * exists row, (repeat false (length stabs)). rewrite repeat_length, csum_none. cbn. auto.
      * exists row, u. cbn. rewrite x0; auto.
    + intros (row & t1 & h & l1 & ->). destruct (in_dec Bool.bool_dec true t1) as [nz | z].
      * right. exists t1. split; [assumption|]. split; [assumption|]. exists row, []. cbn. rewrite (x0 (xor v _)); auto.
      * left. exists row, []. split; [assumption|]. split; [reflexivity|].
        assert (e1 : t1 = repeat false (length stabs)).
        { rewrite <- l1. clear -z. induction t1 as [|b t IH]; [reflexivity|]. cbn. f_equal.
          - destruct b; [|reflexivity]. exfalso. apply z. now left.
          - apply IH. intro h. apply z. now right. }
        rewrite e1, csum_none. reflexivity.
Qed.

Lemma outer_lemma logs stabs arr m : Forall ok logs -> Forall ok stabs -> Forall ok arr ->
  is_min (fun r => exists row u t, In row arr /\ length u = length logs /\ nonzero u /\ length t = length stabs /\
                   r = xor row (xor (csum u logs) (csum t stabs))) m (snd (outer_loop zero xor w logs stabs (arr, m))).
Proof.
  intros hl hs ha.
  assert (cs : forall u, ok (csum u logs)) by (intro; now apply ok_csum).
  assert (ce : forall u, ok (csum u stabs)) by (intro; now apply ok_csum).
  assert (vis : forall v m, ok v -> exists t m', length t = length stabs /\
    inner_loop zero xor w stabs (shifted arr v, mini m (shifted arr v)) = (shifted arr (xor v (csum t stabs)), m') /\
    is_min (seen arr stabs v) m m').
  { intros v m1 hv. destruct (inner_lemma stabs arr hs ha v m1 hv) as (s & m' & h). exists s, m'. exact h. }
  destruct (loop_lemma logs hl (fun st => inner_loop zero xor w stabs (fst st, mini (snd st) (fst st))) arr ha stabs hs vis
              (length logs) zero m ltac:(lia) ok0) as (s & t & m' & ls & lt & e & mn).
  assert (e0 : shifted arr zero = arr).
  { unfold shifted. rewrite <- (map_id arr) at 2. apply map_ext_in. intros r hr. rewrite Forall_forall in ha. auto. }
  rewrite e0 in e. unfold lstep in e. cbn [fst snd] in e. unfold outer_loop, step. cbn [fst snd]. rewrite e. cbn [snd].
  eapply is_min_ext; [|exact mn]. intro r. cbv beta. unfold seen. split.
  - intros (u & lu & nz & row & t1 & h & l1 & ->). exists row, u, t1. rewrite (xC zero), x0 by auto. auto.
  - intros (row & u & t1 & h & lu & nz & l1 & ->). exists u. split; [assumption|]. split; [assumption|]. exists row, t1.
    rewrite (xC zero), x0 by auto. auto.
Qed.

(* ---- the vectorised block ---- *)
Lemma vstack_lemma ops : Forall ok ops -> forall arr, Forall ok arr ->
  exists rest, fold_left (vstack xor) ops arr = arr ++ rest /\
    (forall r, In r rest <-> exists row s, In row arr /\ length s = length ops /\ nonzero s /\ r = xor row (csum s ops)) /\
    length arr + length rest = 2 ^ length ops * length arr.
Proof.
  induction 1 as [|o ops ho hops IH]; intros arr harr.
  - exists []. cbn. split; [now rewrite app_nil_r|]. split; [|lia]. intro r. split; [intros []|].
    intros (row & s & _ & ls & nz & _). destruct s; [destruct nz|discriminate ls].
  - cbn [fold_left]. unfold vstack at 2. set (arr2 := map (fun row => xor row o) arr).
    assert (h2 : Forall ok (arr ++ arr2)).
    { apply Forall_app. split; [assumption|]. apply Forall_map. eapply Forall_impl; [|exact harr]. cbn. auto. }
    destruct (IH (arr ++ arr2) h2) as (rest & -> & hr & len).
    assert (cs : forall u, ok (csum u ops)) by (intro; now apply ok_csum).
    rewrite Forall_forall in harr.
    exists (arr2 ++ rest). split; [now rewrite app_assoc|]. split.
    + intro r. rewrite in_app_iff, hr. unfold arr2. rewrite in_map_iff. split.
      * intros [(row & <- & h) | (row & s & h & ls & nz & ->)].
        -- exists row, (true :: repeat false (length ops)). cbn [length csum]. rewrite repeat_length, csum_none, x0 by auto.
           repeat split; auto. now left.
        -- apply in_app_or in h. destruct h as [h | h].
           ++ exists row, (false :: s). cbn [length csum]. repeat split; auto. now right.
           ++ apply in_map_iff in h. destruct h as (row' & <- & h). exists row', (true :: s). cbn [length csum].
              rewrite xA by auto. repeat split; auto. now left.
      * intros (row & [|b s] & h & ls & nz & ->); [discriminate ls|]. injection ls as ls. cbn [csum].
        destruct (in_dec Bool.bool_dec true s) as [nz' | z].
        -- right. destruct b.
           ++ exists (xor row o), s. rewrite xA by auto. repeat split; auto. apply in_or_app. right. apply in_map_iff. now exists row.
           ++ exists row, s. repeat split; auto. apply in_or_app. now left.
        -- destruct nz as [-> | nz]; [|contradiction]. left. exists row. split; [|assumption].
           assert (e1 : s = repeat false (length ops)).
           { rewrite <- ls. clear -z. induction s as [|b t IH]; [reflexivity|]. cbn. f_equal.
             - destruct b; [|reflexivity]. exfalso. apply z. now left.
             - apply IH. intro h. apply z. now right. }
           rewrite e1, csum_none, x0; auto.
    + rewrite app_length in *. unfold arr2 in *. rewrite map_length in *. cbn [length Nat.pow]. nia.
Qed.

Lemma slice_join {A} k (l : list A) : slice_to k l ++ slice_from k l = l.
Proof. unfold slice_to, slice_from. destruct (k <? 0)%Z; apply firstn_skipn. Qed.

Lemma search_lemma (w0 : V -> N) M0 nb k logs stabs : (forall r, ok r -> w0 r = w r) -> Forall ok logs -> Forall ok stabs ->
  (N.of_nat nb < M0)%N ->
  exists d, search zero xor w0 w M0 nb k logs stabs = Some d /\
    is_min (fun r => exists u t, length u = length logs /\ nonzero u /\ length t = length stabs /\
                     r = xor (csum u logs) (csum t stabs)) (N.of_nat nb) d.
Proof.
  intros hw hl hs hM. unfold search. apply N.ltb_lt in hM. rewrite hM. eexists. split; [reflexivity|].
  assert (cl : forall ops u, Forall ok ops -> ok (csum u ops)) by (intros; now apply ok_csum).
  set (S1 := slice_to k stabs). set (S2 := slice_from k stabs).
  assert (eS : S1 ++ S2 = stabs) by apply slice_join.
  assert (hS : Forall ok S1 /\ Forall ok S2) by (apply Forall_app; rewrite eS; assumption). destruct hS as [hS1 hS2].
  assert (h1 : Forall ok [zero]) by (repeat constructor; assumption).
  destruct (vstack_lemma S1 hS1 [zero] h1) as (rest1 & e1 & hr1 & len1). cbv zeta. rewrite e1.
  assert (A1 : forall r, In r ([zero] ++ rest1) <-> exists s, length s = length S1 /\ r = csum s S1).
  { intro r. rewrite in_app_iff, hr1. split.
    - intros [[<- | []] | (row & s & [<- | []] & ls & nz & ->)].
      + exists (repeat false (length S1)). now rewrite repeat_length, csum_none.
      + exists s. rewrite (xC zero), x0; auto.
    - intros (s & ls & ->). destruct (in_dec Bool.bool_dec true s) as [nz | z].
      + right. exists zero, s. rewrite (xC zero), x0 by auto. repeat split; auto. now left.
      + left. left.
        assert (e : s = repeat false (length S1)).
        { rewrite <- ls. clear -z. induction s as [|b t IH]; [reflexivity|]. cbn. f_equal.
          - destruct b; [|reflexivity]. exfalso. apply z. now left.
          - apply IH. intro h. apply z. now right. }
        now rewrite e, csum_none. }
  assert (okA1 : Forall ok ([zero] ++ rest1)).
  { apply Forall_forall. intros r hr. apply A1 in hr. destruct hr as (s & _ & ->). auto. }
  assert (mw : forall arr m, Forall ok arr -> minimum w0 m arr = mini m arr).
  { intros arr m h. unfold minimum. f_equal. apply map_ext_in. intros r hr. rewrite Forall_forall in h. auto. }
  cbn [length] in len1.
  set (kS := (k >? Z.of_nat (length stabs))%Z). destruct kS eqn:ek; unfold kS in ek; clear kS.
  - (* all stabilizers and some logical operators are in the block *)
    assert (kp : (Z.of_nat (length stabs) < k)%Z) by lia.
    assert (e2 : S1 = stabs).
    { unfold S1, slice_to. replace (k <? 0)%Z with false by lia. apply firstn_all2. lia. }
    assert (e3 : S2 = []).
    { unfold S2, slice_from. replace (k <? 0)%Z with false by lia. apply skipn_all2. lia. }
    rewrite e2 in *. rewrite e3. clear S1 S2 e2 e3 eS hS1 hS2.
    set (L1 := slice_to (k - _) logs). set (L2 := slice_from (k - _) logs).
    assert (eL : L1 ++ L2 = logs) by apply slice_join.
    assert (hL : Forall ok L1 /\ Forall ok L2) by (apply Forall_app; rewrite eL; assumption). destruct hL as [hL1 hL2].
    destruct (vstack_lemma L1 hL1 _ okA1) as (rest2 & e4 & hr2 & len2). rewrite e4.
    assert (sk : skipn (2 ^ length stabs) (([zero] ++ rest1) ++ rest2) = rest2).
    { rewrite skipn_app. rewrite skipn_all2 by (rewrite app_length; cbn [length]; lia).
      rewrite app_length. cbn [length app]. replace (2 ^ length stabs - (1 + length rest1)) with 0 by lia. reflexivity. }
    rewrite sk.
    assert (okr2 : Forall ok rest2).
    { apply Forall_forall. intros r hr. apply hr2 in hr. destruct hr as (row & s & hrow & _ & _ & ->).
      rewrite Forall_forall in okA1. auto. }
    rewrite (mw _ _ okr2).
    assert (m1 := is_min_arr (N.of_nat nb) rest2).
    assert (m2 := outer_lemma L2 [] (([zero] ++ rest1) ++ rest2) (mini (N.of_nat nb) rest2) hL2 ltac:(constructor)
                    ltac:(apply Forall_app; split; assumption)).
    eapply is_min_ext; [|exact (is_min_trans _ _ _ _ _ m1 m2)]. intro r. cbv beta. rewrite hr2. split.
    + intros [(row & s & hrow & ls & nz & ->) | (row & u & t & hrow & lu & nz & lt & ->)].
      * apply A1 in hrow. destruct hrow as (t & lt & ->).
        exists (s ++ repeat false (length L2)), t. split; [rewrite app_length, repeat_length; rewrite <- eL, app_length; lia|].
        split; [apply in_or_app; now left|]. split; [assumption|].
        rewrite <- eL, csum_app, csum_none, x0 by auto. apply xC; auto.
      * destruct t; [|discriminate lt]. cbn [csum]. rewrite x0 by auto.
        apply in_app_or in hrow. destruct hrow as [hrow | hrow].
        -- apply A1 in hrow. destruct hrow as (t & lt' & ->).
           exists (repeat false (length L1) ++ u), t. split; [rewrite app_length, repeat_length; rewrite <- eL, app_length; lia|].
           split; [apply in_or_app; now right|]. split; [assumption|].
           rewrite <- eL, csum_app, csum_none by (rewrite ?repeat_length; auto). rewrite (xC zero), x0 by auto. apply xC; auto.
        -- apply hr2 in hrow. destruct hrow as (row' & s & hrow & ls & nz' & ->). apply A1 in hrow. destruct hrow as (t & lt' & ->).
           exists (s ++ u), t. split; [rewrite app_length; rewrite <- eL, app_length; lia|].
           split; [apply in_or_app; now left|]. split; [assumption|].
           rewrite <- eL, csum_app by auto. rewrite <- xA, xC by auto. reflexivity.
    + intros (u & t & lu & nz & lt & ->).
      rewrite <- eL in lu. rewrite app_length in lu.
      set (u1 := firstn (length L1) u). set (u2 := skipn (length L1) u).
      assert (eu : u = u1 ++ u2) by (symmetry; apply firstn_skipn).
      assert (lu1 : length u1 = length L1) by (unfold u1; rewrite firstn_length; lia).
      assert (lu2 : length u2 = length L2) by (unfold u2; rewrite skipn_length; lia).
      assert (inA : In (csum t stabs) ([zero] ++ rest1)) by (apply A1; exists t; auto).
      rewrite eu. rewrite <- eL, csum_app by auto.
      destruct (in_dec Bool.bool_dec true u2) as [nz2 | z2].
      * right. destruct (in_dec Bool.bool_dec true u1) as [nz1 | z1].
        -- exists (xor (csum t stabs) (csum u1 L1)), u2, []. cbn [csum]. split.
           { apply in_or_app. right. apply hr2. exists (csum t stabs), u1. auto. }
           repeat split; auto. rewrite x0 by auto. rewrite (xC (xor (csum u1 L1) _)), xA by auto. reflexivity.
        -- exists (csum t stabs), u2, []. cbn [csum]. split; [apply in_or_app; now left|]. repeat split; auto.
           assert (e : csum u1 L1 = zero).
           { rewrite <- (csum_none L1), <- lu1. f_equal. clear -z1. induction u1 as [|b t IH]; [reflexivity|]. cbn. f_equal.
             - destruct b; [|reflexivity]. exfalso. apply z1. now left.
             - apply IH. intro h. apply z1. now right. }
           rewrite e, (xC zero), !x0 by auto. apply xC; auto.
      * left. exists (csum t stabs), u1. split; [assumption|]. split; [assumption|]. split.
        { rewrite eu in nz. apply in_app_or in nz. destruct nz as [nz | nz]; [assumption|contradiction]. }
        assert (e : csum u2 L2 = zero).
        { rewrite <- (csum_none L2), <- lu2. f_equal. clear -z2. induction u2 as [|b t IH]; [reflexivity|]. cbn. f_equal.
          - destruct b; [|reflexivity]. exfalso. apply z2. now left.
          - apply IH. intro h. apply z2. now right. }
        rewrite e, !x0 by auto. apply xC; auto.
  - (* only stabilizers are in the block *)
    assert (kp : (k <= Z.of_nat (length stabs))%Z) by lia.
    assert (l1 : length S1 <= length stabs) by (rewrite <- eS, app_length; lia).
    assert (sk : skipn (2 ^ length stabs) ([zero] ++ rest1) = []).
    { apply skipn_all2. rewrite app_length. cbn [length].
      assert (2 ^ length S1 <= 2 ^ length stabs) by (apply Nat.pow_le_mono_r; lia). lia. }
    rewrite sk. cbn [minimum map fold_left].
    assert (m2 := outer_lemma logs S2 ([zero] ++ rest1) (N.of_nat nb) hl hS2 okA1).
    eapply is_min_ext; [|exact m2]. intro r. cbv beta. split.
    + intros (row & u & t & hrow & lu & nz & lt & ->). apply A1 in hrow. destruct hrow as (s & ls & ->).
      exists u, (s ++ t). repeat split; auto; [rewrite <- eS, !app_length; lia|].
      rewrite <- eS, csum_app by auto. rewrite xCA by auto. reflexivity.
    + intros (u & t & lu & nz & lt & ->). rewrite <- eS in lt. rewrite app_length in lt.
      exists (csum (firstn (length S1) t) S1), u, (skipn (length S1) t). split.
      { apply A1. exists (firstn (length S1) t). split; [rewrite firstn_length; lia|reflexivity]. }
      repeat split; auto; [rewrite skipn_length; lia|].
      rewrite <- (firstn_skipn (length S1) t) at 1. rewrite <- eS at 1. rewrite csum_app by (auto; rewrite firstn_length; lia).
      rewrite xCA by auto. reflexivity.
Qed.
End Gray.

(* ------------------------------------------------------------------------------------ the whole routine *)
Lemma xorl_comm a b : length a = length b -> xorl a b = xorl b a.
Proof.
  intro h. apply nth_ext with (d := false) (d' := false); [rewrite !xorl_length; congruence|]. intros i _.
  rewrite !nth_xorl by congruence. apply xorb_comm.
Qed.
Lemma xorl_assoc a b c : length a = length b -> length b = length c -> xorl a (xorl b c) = xorl (xorl a b) c.
Proof.
  intros h h'. apply nth_ext with (d := false) (d' := false); [rewrite !xorl_length; rewrite ?xorl_length; congruence|]. intros i _.
  rewrite !nth_xorl by (rewrite ?xorl_length; congruence). symmetry. apply xorb_assoc.
Qed.
Lemma xorl_zero a : xorl a (repeat false (length a)) = a.
Proof. induction a as [|b a IH]; [reflexivity|]. cbn [length repeat]. unfold xorl in *. cbn. now rewrite IH, xorb_false_r. Qed.
Lemma xorl_self a : xorl a a = repeat false (length a).
Proof. induction a as [|b a IH]; [reflexivity|]. cbn [length repeat]. unfold xorl in *. cbn. now rewrite IH, xorb_nilpotent. Qed.

Lemma combo_length nb ops : Forall (fun r => length r = nb) ops -> forall s, length (combo nb s ops) = nb.
Proof.
  induction 1 as [|o ops ho hops IH]; intros [|b s]; cbn; rewrite ?repeat_length; try reflexivity.
  destruct b; [|apply IH]. rewrite xorl_length; [assumption|]. now rewrite IH.
Qed.

Lemma wt_le r : (wt r <= N.of_nat (length r))%N.
Proof. unfold wt. pose proof (count_occ_bound Bool.bool_dec true r). lia. Qed.
Lemma swt_le r : (swt r <= N.of_nat (length r))%N.
Proof.
  unfold swt. set (n := Nat.div2 (length r)).
  assert (g : forall (f : nat -> bool) l, length (filter f l) <= length l).
  { intros f l. induction l as [|a l IH]; [cbn; lia|]. cbn. destruct (f a); cbn; lia. }
  pose proof (g (fun i => nth i r false || nth (n + i) r false) (seq 0 n)) as h. rewrite seq_length in h.
  pose proof (Nat.div2_decr (length r) (length r) ltac:(lia)). fold n in H. lia.
Qed.

(* the weight counted by the routine *)
Definition weight (homogeneous : bool) (row : list bool) : N := if homogeneous then wt row else swt row.

Theorem distance_ok be homogeneous block_size nb logs stabs :
  0 < nb -> (homogeneous = false -> Nat.Even nb) -> (N.of_nat nb < first_modulus be)%N ->
  Forall (fun r => length r = nb) logs -> Forall (fun r => length r = nb) stabs ->
  exists d, get_distance_quantum be homogeneous block_size nb logs stabs = Some d /\ (d <= N.of_nat nb)%N /\
    (forall s t, length s = length logs -> length t = length stabs -> In true s ->
       (d <= weight homogeneous (xorl (combo nb s logs) (combo nb t stabs)))%N) /\
    (logs <> [] -> exists s t, length s = length logs /\ length t = length stabs /\ In true s /\
       d = weight homogeneous (xorl (combo nb s logs) (combo nb t stabs))).
Proof.
  intros hnb hev hM hl hs.
  set (enc := fun r => to_ints (if homogeneous then r else riffle r)).
  assert (lenr : forall r, length r = nb -> length (if homogeneous then r else riffle r) = nb).
  { intros r h. destruct homogeneous; [assumption|]. rewrite riffle_length, h. destruct (hev eq_refl) as [k ->].
    rewrite Nat.div2_double. lia. }
  assert (encx : forall a b, length a = nb -> length b = nb -> enc (xorl a b) = xorw (enc a) (enc b)).
  { intros a b ha hb. unfold enc. rewrite <- to_ints_xor by (rewrite !lenr; auto).
    destruct homogeneous; [reflexivity|]. rewrite riffle_xor by congruence. reflexivity. }
  set (zero := repeat 0%N (num_words nb)).
  assert (enc0 : enc (repeat false nb) = zero).
  { assert (e : (if homogeneous then repeat false nb else riffle (repeat false nb)) = repeat false nb).
    { destruct homogeneous; [reflexivity|]. destruct (hev eq_refl) as [k ->]. unfold riffle. rewrite repeat_length, Nat.div2_double.
      assert (g : forall i, nth i (repeat false (2 * k)) false = false) by (intro; apply nth_repeat).
      rewrite flat_map_ext with (g := fun _ => [false; false]); [|intro; now rewrite !g]. clear.
      assert (fm : forall k s, flat_map (fun _ : nat => [false; false]) (seq s k) = repeat false (2 * k)); [|apply fm].
      clear. induction k as [|k IH]; intro s; [reflexivity|]. cbn [seq flat_map app]. rewrite IH.
      replace (2 * S k) with (S (S (2 * k))) by lia. reflexivity. }
    unfold enc. rewrite e. unfold zero, to_ints. rewrite repeat_length. clear.
    generalize (seq 0 (num_words nb)) as l, (seq_length (num_words nb) 0). intros l <-.
    induction l as [|i l IH]; [reflexivity|]. cbn [map length repeat]. rewrite <- IH. f_equal.
    rewrite to_int_num by (rewrite firstn_length; lia).
    assert (g : Forall (eq false) (firstn 64 (skipn (64 * i) (repeat false nb)))).
    { apply Forall_forall. intros b hb. 
      assert (hin : In b (repeat false nb)).
      { rewrite <- (firstn_skipn (64 * i) (repeat false nb)). apply in_or_app. right.
        rewrite <- (firstn_skipn 64 (skipn (64 * i) (repeat false nb))). apply in_or_app. now left. }
      symmetry. eapply repeat_spec. eassumption. }
    induction g as [|b l' <- g IHg]; [reflexivity|]. cbn. assumption. }
  set (ok := fun p => exists r, length r = nb /\ p = enc r).
  set (w1 := fun row => inplace_rowsum w64 (map (if homogeneous then hamming_fn be else symplectic_fn be) row)).
  set (w0 := fun row => inplace_rowsum (first_modulus be) (map (if homogeneous then hamming_fn be else symplectic_fn be) row)).
  assert (M64 : (first_modulus be <= w64)%N) by (destruct be; unfold first_modulus, w64; cbn; lia).
  assert (hw : forall M r, (64 < M)%N -> (N.of_nat nb < M)%N -> length r = nb ->
    inplace_rowsum M (map (if homogeneous then hamming_fn be else symplectic_fn be) (enc r)) = weight homogeneous r).
  { intros M r h64 hM' lr. unfold enc, weight. destruct homogeneous.
    - apply hamming_row; [lia | assumption |]. pose proof (wt_le r). lia.
    - apply symplectic_row; [lia | rewrite lr; auto | assumption |]. pose proof (swt_le r). lia. }
  assert (ew1 : forall r, length r = nb -> w1 (enc r) = weight homogeneous r).
  { intros r lr. apply hw; [reflexivity | lia | assumption]. }
  assert (cso : forall ops, Forall (fun r => length r = nb) ops -> forall s, csum zero xorw s (map enc ops) = enc (combo nb s ops)).
  { induction 1 as [|o ops ho hops IH]; intros [|b s]; cbn [map csum combo]; rewrite ?enc0; try reflexivity.
    rewrite IH. destruct b; [|reflexivity]. rewrite encx; auto using combo_length. }
  destruct (search_lemma zero xorw w1 ok) with (w0 := w0) (M0 := first_modulus be) (nb := nb) (logs := map enc logs) (stabs := map enc stabs)
    (k := Z.min (Z.of_nat block_size + 1 - Z.of_nat (num_words nb)) (Z.of_nat (length logs + length stabs))) as (d & e & mn).
  - exists (repeat false nb). split; [apply repeat_length | symmetry; assumption].
  - intros p q (a & la & ->) (b & lb & ->). exists (xorl a b). split; [rewrite xorl_length; congruence | now rewrite encx].
  - intros p q u (a & la & ->) (b & lb & ->) (c & lc & ->).
    rewrite <- !encx by (rewrite ?xorl_length; congruence). rewrite xorl_assoc by congruence. reflexivity.
  - intros p q (a & la & ->) (b & lb & ->). rewrite <- !encx by assumption. rewrite xorl_comm by congruence. reflexivity.
  - intros p (a & la & ->). rewrite <- enc0, <- encx by (auto; apply repeat_length). subst nb. now rewrite xorl_zero.
  - intros p (a & la & ->). rewrite <- enc0, <- encx by assumption. subst nb. now rewrite xorl_self.
  - intros p (a & la & ->). rewrite ew1 by assumption. apply hw; [|assumption|assumption]. apply first_modulus_big.
  - apply Forall_map. eapply Forall_impl; [|exact hl]. intros r lr. exists r. auto.
  - apply Forall_map. eapply Forall_impl; [|exact hs]. intros r lr. exists r. auto.
  - assumption.
  - exists d. split.
    + unfold get_distance_quantum. fold zero w0 w1. destruct homogeneous; exact e.
    + destruct mn as (m1 & m2 & m3). rewrite !map_length in *.
      assert (val : forall s t, w1 (xorw (csum zero xorw s (map enc logs)) (csum zero xorw t (map enc stabs))) =
                weight homogeneous (xorl (combo nb s logs) (combo nb t stabs))).
      { intros s t. rewrite !cso by assumption. rewrite <- encx by (apply combo_length; assumption).
        apply ew1. rewrite xorl_length; rewrite ?combo_length; auto. }
      split; [assumption|]. split.
      * intros s t ls lt nz. rewrite <- val. apply m2. exists s, t. auto.
      * intro ne. destruct m3 as [-> | (r & (s & t & ls & nz & lt & ->) & ->)].
        -- exists (repeat true (length logs)), (repeat true (length stabs)). rewrite !repeat_length. repeat split.
           ++ destruct logs; [congruence | now left].
           ++ apply N.le_antisymm.
              ** rewrite <- val. apply m2. exists (repeat true (length logs)), (repeat true (length stabs)). rewrite !repeat_length.
                 repeat split. destruct logs; [congruence | now left].
              ** match goal with |- (weight _ ?r <= _)%N => assert (lr : length r = nb) by (rewrite xorl_length; rewrite ?combo_length; auto);
                   pose proof (wt_le r); pose proof (swt_le r) end.
                 rewrite lr in *. unfold weight. destruct homogeneous; assumption.
        -- exists s, t. repeat split; auto.
Qed.

(* no value is returned when the number of columns does not fit the type of the first weights *)
Lemma distance_overflow be homogeneous block_size nb logs stabs :
  (first_modulus be <= N.of_nat nb)%N -> get_distance_quantum be homogeneous block_size nb logs stabs = None.
Proof. intro h. unfold get_distance_quantum, search. apply N.ltb_ge in h. now rewrite h. Qed.
