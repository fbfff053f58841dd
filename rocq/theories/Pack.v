(* Packing binary rows into 64-bit words: model of qldpc/codes/distance.py:111-201 and proofs about it. *)
From Coq Require Import NArith Arith List Bool Lia ZifyN.
From Verif Require Import BitWeight.
Import ListNotations.
Local Open Scope N_scope.

(* ------------------------------------------------------------------------------------------------ model *)
(* distance.py:186-188 (_to_int): (bits << np.arange(len(bits) - 1, -1, -1)).sum(), modulo 2^64 *)
Definition to_int (bits : list bool) : N :=
  fold_left add64 (map (fun p => N.shiftl (b2n (fst p)) (N.of_nat (snd p)) mod w64) (combine bits (rev (seq 0 (length bits))))) 0.

(* distance.py:190-192 (_to_ints): one integer for each slice bits[i : i + 64], i in range(0, len(bits), 64) *)
Definition num_words (n : nat) : nat := ((n + 63) / 64)%nat.
Definition to_ints (bits : list bool) : list N :=
  map (fun k => to_int (firstn 64 (skipn (64 * k) bits))) (seq 0 (num_words (length bits))).

(* distance.py:197-201 (_riffle), one row: reshape to (2, n), transpose, flatten *)
Definition riffle (row : list bool) : list bool :=
  let n := Nat.div2 (length row) in
  flat_map (fun i => [nth i row false; nth (n + i) row false]) (seq 0 n).

(* distance.py:160-172 (_inplace_rowsum), one row of an array whose integer type has M values.  The Python loop halves the
   width; fuel = number of entries is always enough. *)
Fixpoint rowsum (M : N) (fuel : nat) (arr : list N) : N :=
  match fuel with
  | O => hd 0 arr
  | S f =>
    let width := length arr in
    if (width <=? 1)%nat then hd 0 arr
    else let split := Nat.div2 width in
         let left := map (fun p => (fst p + snd p) mod M) (combine (firstn split arr) (skipn (width - split) arr)) in
         rowsum M f (left ++ firstn (width - split - split) (skipn split arr))
  end.
Definition inplace_rowsum (M : N) (arr : list N) : N := rowsum M (length arr) arr.

(* distance.py:111-152: the weight function per word, and the number of values of the type of its result when no
   output array is given: numba and the SWAR routine return 64-bit integers, np.bitwise_count returns uint8 *)
Inductive backend := Numba | BitwiseCount | Swar.
(* np.bitwise_count counts the ones of a word (external; modelled by the specification of a population count) *)
Definition bitwise_count (x : N) : N := ones 64 x.
Definition hamming_fn (b : backend) (x : N) : N :=
  match b with Numba => hamming_weight_single x | BitwiseCount => bitwise_count x | Swar => hamming_weight x end.
Definition symplectic_fn (b : backend) (x : N) : N :=
  match b with
  | Numba => symplectic_weight_single x
  | BitwiseCount => let buf := shr64 x 1 in let buf := N.lor buf x in let buf := N.land buf mask55 in bitwise_count buf
  | Swar => symplectic_weight x
  end.
Definition first_modulus (b : backend) : N := match b with BitwiseCount => 2 ^ 8 | _ => w64 end.

(* ---------------------------------------------------------------------------------------- specification *)
(* number of ones of a row; number of qubits i < n with x_i or z_i set, for the row [x | z] *)
Definition wt (row : list bool) : N := N.of_nat (count_occ Bool.bool_dec row true).
Definition swt (row : list bool) : N :=
  let n := Nat.div2 (length row) in
  N.of_nat (length (filter (fun i => nth i row false || nth (n + i) row false) (seq 0 n))).
(* sum (xor) of two rows *)
Definition xorl (a b : list bool) : list bool := map (fun p => xorb (fst p) (snd p)) (combine a b).
Definition xorw (a b : list N) : list N := map (fun p => N.lxor (fst p) (snd p)) (combine a b).

(* ------------------------------------------------------------------------------------------------ proofs *)
(* a row as a number, most significant bit first *)
Fixpoint num (bits : list bool) : N := match bits with [] => 0 | b :: r => b2n b * 2 ^ N.of_nat (length r) + num r end.

Lemma b2n_le b : b2n b <= 1. Proof. destruct b; cbn; lia. Qed.

Lemma num_lt bits : num bits < 2 ^ N.of_nat (length bits).
Proof.
  induction bits as [|b r IH]; [reflexivity|]. cbn [num length]. rewrite Nat2N.inj_succ, N.pow_succ_r'.
  pose proof (b2n_le b). nia.
Qed.

Lemma fold_add64 l : forall acc, acc < w64 -> fold_right N.add acc l < w64 -> fold_left add64 l acc = fold_right N.add acc l.
Proof.
  assert (shift : forall l a c, fold_right N.add (a + c) l = a + fold_right N.add c l).
  { induction l0 as [|x r IH]; intros a c; cbn; [reflexivity|]. rewrite IH. lia. }
  assert (low : forall l c, c <= fold_right N.add c l).
  { induction l0 as [|x r IH]; intro c; cbn; [lia|]. specialize (IH c). lia. }
  induction l as [|x r IH]; intros acc ha hs; [reflexivity|]. cbn [fold_left fold_right] in *.
  assert (e : add64 acc x = x + acc).
  { unfold add64. rewrite N.mod_small; [lia|]. pose proof (low r acc). pose proof (low r (x + acc)).
    rewrite shift in *. lia. }
  rewrite e, IH; rewrite ?shift; try assumption; try reflexivity.
  pose proof (low r acc). lia.
Qed.

Lemma to_int_num bits : (length bits <= 64)%nat -> to_int bits = num bits.
Proof.
  intro h.
  assert (key : forall l, (length l <= 64)%nat ->
    fold_right N.add 0 (map (fun p => N.shiftl (b2n (fst p)) (N.of_nat (snd p)) mod w64) (combine l (rev (seq 0 (length l))))) = num l).
  { induction l as [|b r IH]; intro hl; [reflexivity|]. cbn [length] in *.
    rewrite seq_S, rev_app_distr. cbn [rev app combine map fold_right plus fst snd num].
    rewrite IH by lia. f_equal. rewrite N.shiftl_mul_pow2, N.mod_small; [reflexivity|].
    assert (2 ^ N.of_nat (length r) <= 2 ^ 63) by (apply N.pow_le_mono_r; lia).
    pose proof (b2n_le b). unfold w64. change (2 ^ 64) with (2 * 2 ^ 63). nia. }
  unfold to_int. rewrite fold_add64; [now apply key|reflexivity|].
  rewrite key by assumption. pose proof (num_lt bits).
  assert (2 ^ N.of_nat (length bits) <= 2 ^ 64) by (apply N.pow_le_mono_r; lia). unfold w64. lia.
Qed.

Lemma testbit_num bits i : N.testbit (num bits) (N.of_nat i) = (i <? length bits)%nat && nth (length bits - 1 - i) bits false.
Proof.
  revert i. induction bits as [|b r IH]; intro i; [cbn; destruct (N.of_nat i); reflexivity|]. cbn [num length].
  rewrite N.mul_comm. destruct (Nat.ltb_spec i (S (length r))) as [lt | ge]; cbn [andb].
  - destruct (Nat.eq_dec i (length r)) as [-> | ne].
    + pose proof (testbit_high (N.of_nat (length r)) (b2n b) (num r) 0 (num_lt r)) as hb. rewrite N.add_0_l in hb. rewrite hb.
      replace (S (length r) - 1 - length r)%nat with 0%nat by lia. destruct b; reflexivity.
    + rewrite testbit_low; [|apply num_lt|lia]. rewrite IH.
      replace (i <? length r)%nat with true by (symmetry; apply Nat.ltb_lt; lia).
      replace (S (length r) - 1 - i)%nat with (S (length r - 1 - i)) by lia. reflexivity.
  - replace (N.of_nat i) with (N.of_nat (i - length r) + N.of_nat (length r)) by lia.
    rewrite testbit_high by apply num_lt. destruct (i - length r)%nat as [|k] eqn:e; [lia|].
    destruct b; cbn [b2n]; [|apply N.bits_0]. rewrite Nat2N.inj_succ. destruct (N.of_nat k); reflexivity.
Qed.

Lemma num_inj a b : length a = length b -> num a = num b -> a = b.
Proof.
  intros len e. apply nth_ext with (d := false) (d' := false); [assumption|]. intros n hn.
  assert (h := testbit_num a (length a - 1 - n)). assert (h' := testbit_num b (length b - 1 - n)).
  rewrite e, len, h' in h. rewrite len in *.
  replace (length b - 1 - n <? length b)%nat with true in h by (symmetry; apply Nat.ltb_lt; lia).
  replace (length b - 1 - (length b - 1 - n))%nat with n in h by lia. now cbn in h.
Qed.

Lemma xorl_length a b : length a = length b -> length (xorl a b) = length a.
Proof. intro h. unfold xorl. rewrite map_length, combine_length. lia. Qed.

Lemma num_xor : forall a b, length a = length b -> num (xorl a b) = N.lxor (num a) (num b).
Proof.
  assert (xor_lt : forall x y k, x < 2 ^ k -> y < 2 ^ k -> N.lxor x y < 2 ^ k).
  { intros x y k hx hy. assert (N.lxor x y = N.lxor x y mod 2 ^ k) as ->; [|apply N.mod_lt, N.pow_nonzero; lia].
    apply N.bits_inj. intro i. destruct (N.lt_ge_cases i k) as [lt | ge].
    - now rewrite N.mod_pow2_bits_low.
    - rewrite N.mod_pow2_bits_high by assumption. rewrite N.lxor_spec.
      rewrite <- (N.mod_small x (2 ^ k)), <- (N.mod_small y (2 ^ k)) by assumption.
      now rewrite !N.mod_pow2_bits_high. }
  induction a as [|x a IH]; intros [|y b] h; try discriminate h; [reflexivity|].
  injection h as h. cbn [num]. specialize (IH b h).
  change (xorl (x :: a) (y :: b)) with (xorb x y :: xorl a b). cbn [num]. rewrite xorl_length, IH by assumption. rewrite <- h.
  pose proof (num_lt a) as la. pose proof (num_lt b) as lb. rewrite <- h in lb.
  set (k := N.of_nat (length a)) in *. rewrite !(N.mul_comm _ (2 ^ k)).
  apply N.bits_inj. intro i. rewrite N.lxor_spec. destruct (N.lt_ge_cases i k) as [lt | ge].
  - rewrite !testbit_low by (auto). now rewrite N.lxor_spec.
  - replace i with ((i - k) + k) by lia. rewrite !testbit_high by auto.
    destruct x, y; cbn [b2n xorb]; rewrite ?N.bits_0, ?xorb_nilpotent, ?xorb_false_r, ?xorb_false_l; reflexivity.
Qed.

(* weights of one word *)
Lemma ones_S n x : ones (S n) x = b2n (N.testbit x (N.of_nat n)) + ones n x. Proof. reflexivity. Qed.

Lemma ones_num bits n : (length bits <= n)%nat -> ones n (num bits) = wt bits.
Proof.
  revert n. induction bits as [|b r IH]; intros n h.
  - cbn [num]. unfold wt. cbn. clear h. induction n as [|n IH]; [reflexivity|]. rewrite ones_S, N.bits_0, IH. reflexivity.
  - cbn [length] in h.
    assert (high : forall m, (S (length r) <= m)%nat -> ones m (num (b :: r)) = b2n b + ones (length r) (num (b :: r))).
    { induction m as [|m IHm]; intro hm; [lia|]. rewrite ones_S.
      destruct (Nat.eq_dec m (length r)) as [-> | ne].
      - rewrite testbit_num. cbn [length]. replace (length r <? S (length r))%nat with true by (symmetry; apply Nat.ltb_lt; lia).
        replace (S (length r) - 1 - length r)%nat with 0%nat by lia. reflexivity.
      - rewrite IHm by lia. rewrite testbit_num. cbn [length].
        replace (m <? S (length r))%nat with false by (symmetry; apply Nat.ltb_ge; lia). reflexivity. }
    rewrite high by lia.
    assert (low : forall m, (m <= length r)%nat -> ones m (num (b :: r)) = ones m (num r)).
    { induction m as [|m IHm]; intro hm; [reflexivity|]. rewrite !ones_S, IHm by lia. f_equal. f_equal.
      rewrite !testbit_num. cbn [length].
      replace (m <? S (length r))%nat with true by (symmetry; apply Nat.ltb_lt; lia).
      replace (m <? length r)%nat with true by (symmetry; apply Nat.ltb_lt; lia).
      replace (S (length r) - 1 - m)%nat with (S (length r - 1 - m)) by lia. reflexivity. }
    rewrite low, IH by lia. unfold wt. destruct b; cbn [count_occ b2n].
    + destruct (bool_dec true true); [lia | congruence].
    + destruct (bool_dec false true); [congruence | lia].
Qed.

(* number of nonzero pairs of consecutive entries *)
Fixpoint pwt (bits : list bool) : N :=
  match bits with a :: b :: r => b2n (a || b) + pwt r | _ => 0 end.

Lemma pairs_S n x : pairs (S n) x = b2n (N.testbit x (2 * N.of_nat n) || N.testbit x (2 * N.of_nat n + 1)) + pairs n x.
Proof. reflexivity. Qed.

Lemma pairs_num k : forall bits n, length bits = (2 * k)%nat -> (k <= n)%nat -> pairs n (num bits) = pwt bits.
Proof.
  induction k as [|k IH]; intros bits n len h.
  - destruct bits; [|discriminate len]. cbn [num pwt]. clear h. induction n as [|n IH]; [reflexivity|].
    rewrite pairs_S, !N.bits_0, IH. reflexivity.
  - destruct bits as [|a [|b r]]; try (cbn in len; lia). assert (lr : length r = (2 * k)%nat) by (cbn in len; lia).
    assert (tb : forall i, (i < length r)%nat -> N.testbit (num (a :: b :: r)) (N.of_nat i) = N.testbit (num r) (N.of_nat i)).
    { intros i hi. rewrite !testbit_num. cbn [length].
      replace (i <? S (S (length r)))%nat with true by (symmetry; apply Nat.ltb_lt; lia).
      replace (i <? length r)%nat with true by (symmetry; apply Nat.ltb_lt; lia).
      replace (S (S (length r)) - 1 - i)%nat with (S (S (length r - 1 - i))) by lia. reflexivity. }
    assert (low : forall m, (m <= k)%nat -> pairs m (num (a :: b :: r)) = pairs m (num r)).
    { induction m as [|m IHm]; intro hm; [reflexivity|]. rewrite !pairs_S, IHm by lia. f_equal. f_equal.
      replace (2 * N.of_nat m + 1) with (N.of_nat (2 * m + 1)) by lia. replace (2 * N.of_nat m) with (N.of_nat (2 * m)) by lia.
      rewrite !tb by lia. reflexivity. }
    assert (high : forall m, (S k <= m)%nat -> pairs m (num (a :: b :: r)) = b2n (a || b) + pairs k (num (a :: b :: r))).
    { induction m as [|m IHm]; intro hm; [lia|]. rewrite pairs_S.
      replace (2 * N.of_nat m + 1) with (N.of_nat (2 * m + 1)) by lia. replace (2 * N.of_nat m) with (N.of_nat (2 * m)) by lia.
      rewrite !testbit_num. cbn [length].
      destruct (Nat.eq_dec m k) as [-> | ne].
      - replace (2 * k <? S (S (length r)))%nat with true by (symmetry; apply Nat.ltb_lt; lia).
        replace (2 * k + 1 <? S (S (length r)))%nat with true by (symmetry; apply Nat.ltb_lt; lia).
        replace (S (S (length r)) - 1 - 2 * k)%nat with 1%nat by lia.
        replace (S (S (length r)) - 1 - (2 * k + 1))%nat with 0%nat by lia. cbn [nth andb]. now rewrite orb_comm.
      - rewrite IHm by lia.
        replace (2 * m <? S (S (length r)))%nat with false by (symmetry; apply Nat.ltb_ge; lia).
        replace (2 * m + 1 <? S (S (length r)))%nat with false by (symmetry; apply Nat.ltb_ge; lia). reflexivity. }
    rewrite high, low by lia. rewrite (IH r k) by (assumption || lia). reflexivity.
Qed.

(* ------------------------------------------------------------------------------ rows of several words *)
Lemma skipn_skipn {A} (l : list A) : forall x y, skipn x (skipn y l) = skipn (x + y) l.
Proof.
  induction l as [|a l IH]; intros x y; [now rewrite !skipn_nil|]. destruct y.
  - now rewrite Nat.add_0_r.
  - rewrite Nat.add_succ_r. cbn [skipn]. apply IH.
Qed.
Lemma flat_map_length2 {A B} (f : A -> list B) k l : (forall x, length (f x) = k) -> length (flat_map f l) = (k * length l)%nat.
Proof. intro h. induction l as [|x l IH]; cbn [flat_map length]; [lia|]. rewrite app_length, IH, h. lia. Qed.
Definition sumN (l : list N) : N := fold_right N.add 0 l.

Lemma num_words_S n : (64 < n)%nat -> num_words n = S (num_words (n - 64)).
Proof. intro h. unfold num_words. replace (n + 63)%nat with (n - 64 + 63 + 1 * 64)%nat by lia. rewrite Nat.div_add by lia. lia. Qed.
Lemma num_words_1 n : (0 < n <= 64)%nat -> num_words n = 1%nat.
Proof. intro h. unfold num_words. replace (n + 63)%nat with (n - 1 + 1 * 64)%nat by lia. rewrite Nat.div_add by lia. rewrite Nat.div_small by lia. lia. Qed.

Lemma to_ints_cons bits : (64 < length bits)%nat -> to_ints bits = num (firstn 64 bits) :: to_ints (skipn 64 bits).
Proof.
  intro h. unfold to_ints. rewrite num_words_S, skipn_length by assumption. cbn [seq map]. f_equal.
  - rewrite Nat.mul_0_r. cbn [skipn]. apply to_int_num. rewrite firstn_length. lia.
  - rewrite <- seq_shift, map_map. apply map_ext. intro k. do 2 f_equal.
    rewrite skipn_skipn. f_equal. lia.
Qed.
Lemma to_ints_1 bits : (0 < length bits <= 64)%nat -> to_ints bits = [num bits].
Proof.
  intro h. unfold to_ints. rewrite num_words_1 by assumption. cbn [seq map]. rewrite Nat.mul_0_r. cbn [skipn].
  rewrite firstn_all2 by lia. rewrite to_int_num by lia. reflexivity.
Qed.
Lemma to_ints_nil : to_ints [] = []. Proof. reflexivity. Qed.

(* induction over the blocks of 64 bits *)
Lemma block_ind (P : list bool -> Prop) : P [] -> (forall l, (0 < length l <= 64)%nat -> P l) ->
  (forall l, (64 < length l)%nat -> P (skipn 64 l) -> P l) -> forall l, P l.
Proof.
  intros h0 h1 h2 l. remember (length l) as n eqn:e. revert l e.
  induction n as [n IH] using lt_wf_ind. intros l e.
  destruct (Nat.le_gt_cases (length l) 64) as [le | gt].
  - destruct l; [assumption|]. apply h1. cbn in *. lia.
  - apply h2; [assumption|]. apply (IH (n - 64)%nat); [lia|]. rewrite skipn_length. lia.
Qed.

Lemma wt_app a b : wt (a ++ b) = wt a + wt b.
Proof. unfold wt. rewrite count_occ_app. lia. Qed.

Lemma to_ints_length bits : length (to_ints bits) = num_words (length bits).
Proof. unfold to_ints. now rewrite map_length, seq_length. Qed.

Lemma to_ints_lt bits : Forall (fun x => x < w64) (to_ints bits).
Proof.
  assert (lt64 : forall l, (length l <= 64)%nat -> num l < w64).
  { intros l h. pose proof (num_lt l). assert (2 ^ N.of_nat (length l) <= 2 ^ 64) by (apply N.pow_le_mono_r; lia). unfold w64. lia. }
  induction bits as [|l h|l h IH] using block_ind.
  - constructor.
  - rewrite to_ints_1 by assumption. repeat constructor. apply lt64. lia.
  - rewrite to_ints_cons by assumption. constructor; [|assumption]. apply lt64. rewrite firstn_length. lia.
Qed.

Lemma to_ints_wt bits : sumN (map (ones 64) (to_ints bits)) = wt bits.
Proof.
  induction bits as [|l h|l h IH] using block_ind.
  - reflexivity.
  - rewrite to_ints_1 by assumption. cbn [map sumN fold_right]. rewrite ones_num by lia. lia.
  - rewrite to_ints_cons by assumption. cbn [map]. unfold sumN in *. cbn [fold_right]. rewrite IH.
    rewrite ones_num by (rewrite firstn_length; lia). rewrite <- wt_app, firstn_skipn. reflexivity.
Qed.

Lemma pwt_app k : forall a b, length a = (2 * k)%nat -> pwt (a ++ b) = pwt a + pwt b.
Proof.
  induction k as [|k IH]; intros a b h; [destruct a; [reflexivity|discriminate h]|].
  destruct a as [|x [|y r]]; try (cbn in h; lia). cbn [app pwt]. rewrite IH by (cbn in h; lia). lia.
Qed.

Lemma to_ints_pwt bits : Nat.Even (length bits) -> sumN (map (pairs 32) (to_ints bits)) = pwt bits.
Proof.
  induction bits as [|l h|l h IH] using block_ind; intros [k ek].
  - reflexivity.
  - rewrite to_ints_1 by assumption. cbn [map sumN fold_right]. rewrite (pairs_num k) by lia. lia.
  - rewrite to_ints_cons by assumption. cbn [map]. unfold sumN in *. cbn [fold_right]. rewrite IH.
    + rewrite (pairs_num 32) by (rewrite ?firstn_length; lia).
      rewrite <- (pwt_app 32) by (rewrite firstn_length; lia). now rewrite firstn_skipn.
    + exists (k - 32)%nat. rewrite skipn_length. lia.
Qed.

Lemma to_ints_inj a : forall b, length a = length b -> to_ints a = to_ints b -> a = b.
Proof.
  induction a as [|l h|l h IH] using block_ind; intros b len e.
  - destruct b; [reflexivity|discriminate len].
  - rewrite !to_ints_1 in e by lia. injection e as e. now apply num_inj.
  - rewrite (to_ints_cons l), (to_ints_cons b) in e by lia. injection e as e1 e2.
    rewrite <- (firstn_skipn 64 l), <- (firstn_skipn 64 b). f_equal.
    + apply num_inj; [|assumption]. rewrite !firstn_length. lia.
    + apply IH; [|assumption]. rewrite !skipn_length. lia.
Qed.

Lemma xorl_firstn n : forall a b, xorl (firstn n a) (firstn n b) = firstn n (xorl a b).
Proof. intros. unfold xorl. now rewrite <- combine_firstn, firstn_map. Qed.
Lemma xorl_skipn n : forall a b, length a = length b -> xorl (skipn n a) (skipn n b) = skipn n (xorl a b).
Proof.
  induction n as [|n IH]; intros a b h; [reflexivity|]. destruct a, b; try discriminate h; [reflexivity|].
  cbn [skipn]. rewrite IH by (cbn in h; lia). reflexivity.
Qed.

Lemma to_ints_xor a : forall b, length a = length b -> to_ints (xorl a b) = xorw (to_ints a) (to_ints b).
Proof.
  induction a as [|l h|l h IH] using block_ind; intros b len.
  - destruct b; [reflexivity|discriminate len].
  - rewrite (to_ints_1 l), (to_ints_1 b), (to_ints_1 (xorl l b)) by (rewrite ?xorl_length; lia).
    cbn [xorw combine map fst snd]. now rewrite num_xor.
  - rewrite (to_ints_cons l), (to_ints_cons b), (to_ints_cons (xorl l b)) by (rewrite ?xorl_length; lia).
    unfold xorw. cbn [combine map fst snd].
    rewrite <- num_xor by (rewrite !firstn_length; lia). rewrite xorl_firstn. f_equal.
    rewrite <- xorl_skipn by assumption. apply IH. rewrite !skipn_length. lia.
Qed.

(* --------------------------------------------------------------------------------------------- riffling *)
Lemma riffle_length row : length (riffle row) = (2 * Nat.div2 (length row))%nat.
Proof.
  unfold riffle. set (n := Nat.div2 (length row)). clearbody n.
  rewrite (flat_map_length2 _ 2); [rewrite seq_length; lia|]. intros. reflexivity.
Qed.

Lemma riffle_pwt row : pwt (riffle row) = swt row.
Proof.
  unfold riffle, swt. set (n := Nat.div2 (length row)).
  generalize (seq 0 n). intro l. induction l as [|i l IH]; [reflexivity|].
  cbn [flat_map app pwt filter]. rewrite IH.
  destruct (nth i row false || nth (n + i) row false); cbn [length b2n]; lia.
Qed.

Lemma nth_xorl a : forall b i, length a = length b -> nth i (xorl a b) false = xorb (nth i a false) (nth i b false).
Proof.
  induction a as [|x a IH]; intros [|y b] i h; try discriminate h; [now destruct i|].
  change (xorl (x :: a) (y :: b)) with (xorb x y :: xorl a b). destruct i; [reflexivity|]. cbn [nth]. apply IH. now injection h.
Qed.

Lemma riffle_xor a b : length a = length b -> riffle (xorl a b) = xorl (riffle a) (riffle b).
Proof.
  intro h. unfold riffle. rewrite xorl_length by assumption. rewrite <- h. set (n := Nat.div2 (length a)).
  generalize (seq 0 n). intro l. induction l as [|i l IH]; [reflexivity|].
  cbn [flat_map app]. rewrite !nth_xorl by assumption.
  change (xorb (nth i a false) (nth i b false) :: xorb (nth (n + i) a false) (nth (n + i) b false) ::
    flat_map (fun i => [nth i (xorl a b) false; nth (n + i) (xorl a b) false]) l = 
    xorb (nth i a false) (nth i b false) :: xorb (nth (n + i) a false) (nth (n + i) b false) ::
    xorl (flat_map (fun i => [nth i a false; nth (n + i) a false]) l) (flat_map (fun i => [nth i b false; nth (n + i) b false]) l)).
  now rewrite IH.
Qed.

(* ------------------------------------------------------------------------------------------- row sums *)
Lemma sumN_app a b : sumN (a ++ b) = sumN a + sumN b.
Proof. unfold sumN. induction a as [|x a IH]; cbn; [reflexivity|]. rewrite IH. lia. Qed.

Lemma sum_zip M a : M <> 0 -> forall b, length a = length b ->
  (sumN (map (fun p => (fst p + snd p) mod M) (combine a b))) mod M = (sumN a + sumN b) mod M.
Proof.
  intro nz. induction a as [|x a IH]; intros [|y b] h; try discriminate h; [reflexivity|].
  injection h as h. specialize (IH b h). unfold sumN in *. cbn [combine map fold_right fst snd].
  rewrite N.add_mod_idemp_l by assumption.
  replace (x + fold_right N.add 0 a + (y + fold_right N.add 0 b)) with ((x + y) + (fold_right N.add 0 a + fold_right N.add 0 b)) by lia.
  rewrite N.add_mod, IH, <- N.add_mod by assumption. reflexivity.
Qed.

Lemma rowsum_correct M : M <> 0 -> forall fuel arr, (0 < length arr <= fuel)%nat -> Forall (fun x => x < M) arr ->
  rowsum M fuel arr = sumN arr mod M.
Proof.
  intro nz. induction fuel as [|f IH]; intros arr h hlt; [lia|]. cbn [rowsum].
  destruct (Nat.leb_spec (length arr) 1) as [le | gt].
  - destruct arr as [|x [|]]; cbn in *; try lia. inversion hlt; subst. rewrite N.add_0_r, N.mod_small by assumption. reflexivity.
  - set (w := length arr) in *. set (s := Nat.div2 w).
    assert (hs : (2 * s <= w)%nat /\ (0 < s)%nat).
    { unfold s. pose proof (Nat.div2_odd w). pose proof (Nat.div2_div w). destruct (Nat.odd w); cbn [Nat.b2n] in *; lia. }
    assert (lc : length (map (fun p => (fst p + snd p) mod M) (combine (firstn s arr) (skipn (w - s) arr))) = s).
    { rewrite map_length, combine_length, firstn_length, skipn_length. fold w. lia. }
    rewrite IH.
    + rewrite sumN_app. rewrite N.add_mod by assumption. rewrite sum_zip.
      2: assumption. 2:{ rewrite firstn_length, skipn_length. fold w. lia. }
      rewrite <- N.add_mod by assumption. f_equal.
      rewrite <- (firstn_skipn s arr) at 4. rewrite sumN_app.
      rewrite <- (firstn_skipn (w - s - s) (skipn s arr)) at 2. rewrite sumN_app, skipn_skipn.
      replace (w - s - s + s)%nat with (w - s)%nat by lia. lia.
    + rewrite app_length, lc, firstn_length, skipn_length. fold w. lia.
    + apply Forall_app. split.
      * apply Forall_map, Forall_forall. intros p _. now apply N.mod_lt.
      * apply Forall_forall. intros x hx. rewrite Forall_forall in hlt. apply hlt.
        rewrite <- (firstn_skipn s arr). apply in_or_app. right.
        rewrite <- (firstn_skipn (w - s - s) (skipn s arr)). apply in_or_app. now left.
Qed.

(* --------------------------------------------------------------------- weights of rows of several words *)
Lemma hamming_fn_correct be x : x < w64 -> hamming_fn be x = ones 64 x.
Proof. intro h. destruct be; cbn; [now apply hamming_weight_single_correct | reflexivity | now apply hamming_weight_correct]. Qed.

Lemma ones_le n x : ones n x <= N.of_nat n.
Proof. induction n as [|n IH]; [cbn; lia|]. rewrite ones_S. pose proof (b2n_le (N.testbit x (N.of_nat n))). lia. Qed.
Lemma pairs_le n x : pairs n x <= N.of_nat n.
Proof. induction n as [|n IH]; [cbn; lia|]. rewrite pairs_S. match goal with |- b2n ?b + _ <= _ => pose proof (b2n_le b) end. lia. Qed.

(* counting the even bits of (x | x >> 1) & 0x55... counts nonzero pairs *)
Lemma ones_mask55 x : ones 64 (N.land (N.lor (N.shiftr x 1) x) mask55) = pairs 32 x.
Proof.
  set (y := N.land (N.lor (N.shiftr x 1) x) mask55).
  assert (ev : forall k, (k < 32)%nat -> N.testbit y (N.of_nat (2 * k)) = N.testbit x (2 * N.of_nat k) || N.testbit x (2 * N.of_nat k + 1)).
  { intros k hk. unfold y. rewrite N.land_spec, N.lor_spec, N.shiftr_spec by lia.
    assert (c := check1 (fun k => N.testbit mask55 (2 * k)) 32 eq_refl (N.of_nat k)). cbv beta in c.
    replace (N.of_nat (2 * k)) with (2 * N.of_nat k) by lia. rewrite c by lia. rewrite andb_true_r. apply orb_comm. }
  assert (od : forall k, (k < 32)%nat -> N.testbit y (N.of_nat (2 * k + 1)) = false).
  { intros k hk. unfold y. rewrite N.land_spec.
    assert (c := check1 (fun k => negb (N.testbit mask55 (2 * k + 1))) 32 eq_refl (N.of_nat k)). cbv beta in c.
    replace (N.of_nat (2 * k + 1)) with (2 * N.of_nat k + 1) by lia. apply negb_true_iff in c; [|lia]. rewrite c. apply andb_false_r. }
  assert (g : forall k, (k <= 32)%nat -> ones (2 * k) y = pairs k x).
  { induction k as [|k IH]; intro h; [reflexivity|]. replace (2 * S k)%nat with (S (S (2 * k))) by lia.
    rewrite !ones_S, pairs_S, IH by lia. replace (N.of_nat (S (2 * k))) with (N.of_nat (2 * k + 1)) by lia.
    rewrite od, ev by lia. cbn [b2n]. lia. }
  exact (g 32%nat ltac:(lia)).
Qed.

Lemma symplectic_fn_correct be x : x < w64 -> symplectic_fn be x = pairs 32 x.
Proof.
  intro h. destruct be; cbn [symplectic_fn].
  - now apply symplectic_weight_single_correct.
  - apply ones_mask55.
  - now apply symplectic_weight_correct.
Qed.

Lemma first_modulus_big be : 64 < first_modulus be.
Proof. destruct be; reflexivity. Qed.

Lemma hamming_row be M bits : (0 < length bits)%nat -> 64 < M -> wt bits < M ->
  inplace_rowsum M (map (hamming_fn be) (to_ints bits)) = wt bits.
Proof.
  intros hl hM hw. unfold inplace_rowsum.
  assert (e : map (hamming_fn be) (to_ints bits) = map (ones 64) (to_ints bits)).
  { apply map_ext_in. intros x hx. apply hamming_fn_correct. pose proof (to_ints_lt bits) as f. rewrite Forall_forall in f. auto. }
  rewrite e. rewrite rowsum_correct.
  - rewrite to_ints_wt. now apply N.mod_small.
  - lia.
  - rewrite map_length, to_ints_length. unfold num_words. split; [|lia].
    apply Nat.div_str_pos. lia.
  - apply Forall_map, Forall_forall. intros x _. pose proof (ones_le 64 x). lia.
Qed.

Lemma symplectic_row be M bits : (0 < length bits)%nat -> Nat.Even (length bits) -> 64 < M -> swt bits < M ->
  inplace_rowsum M (map (symplectic_fn be) (to_ints (riffle bits))) = swt bits.
Proof.
  intros hl ev hM hw. unfold inplace_rowsum.
  assert (lr : length (riffle bits) = length bits).
  { rewrite riffle_length. destruct ev as [k ->]. rewrite Nat.div2_double. lia. }
  assert (e : map (symplectic_fn be) (to_ints (riffle bits)) = map (pairs 32) (to_ints (riffle bits))).
  { apply map_ext_in. intros x hx. apply symplectic_fn_correct. pose proof (to_ints_lt (riffle bits)) as f. rewrite Forall_forall in f. auto. }
  rewrite e. rewrite rowsum_correct.
  - rewrite to_ints_pwt by (rewrite lr; assumption). rewrite riffle_pwt. now apply N.mod_small.
  - lia.
  - rewrite map_length, to_ints_length, lr. unfold num_words. split; [|lia].
    apply Nat.div_str_pos. lia.
  - apply Forall_map, Forall_forall. intros x _. pose proof (pairs_le 32 x). lia.
Qed.
