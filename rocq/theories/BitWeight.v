(* Bit-twiddling weights of 64-bit words: model of qldpc/codes/distance.py:8-108 and proofs about it. *)
From Coq Require Import NArith Arith List Bool Lia ZifyN.
Import ListNotations.
Local Open Scope N_scope.

(* ------------------------------------------------------------------- numpy 64-bit unsigned arithmetic *)
Definition w64 : N := 2 ^ 64.
(* np.uint64 addition, subtraction, multiplication (all modulo 2^64) and logical right shift *)
Definition add64 (a b : N) : N := (a + b) mod w64.
Definition sub64 (a b : N) : N := (a + w64 - b) mod w64.
Definition mul64 (a b : N) : N := (a * b) mod w64.
Definition shr64 (a k : N) : N := N.shiftr a k.

(* ------------------------------------------------------------------------------------------------ model *)
(* distance.py:8-11: the masks *)
Definition mask55 : N := 0x5555555555555555.
Definition mask33 : N := 0x3333333333333333.
Definition mask0F : N := 0x0F0F0F0F0F0F0F0F.
Definition mask01 : N := 0x0101010101010101.

(* distance.py:14-40 (_hamming_weight), one entry; the buffers only hold intermediate values *)
Definition hamming_weight (arr : N) : N :=
  let out := shr64 arr 1 in
  let out := N.land out mask55 in
  let out := sub64 arr out in
  let buf := shr64 out 2 in
  let buf := N.land buf mask33 in
  let out := N.land out mask33 in
  let out := add64 out buf in
  let buf := shr64 out 4 in
  let out := add64 out buf in
  let out := N.land out mask0F in
  let out := mul64 out mask01 in
  shr64 out 56.

(* distance.py:43-68 (_symplectic_weight), one entry *)
Definition symplectic_weight (arr : N) : N :=
  let out := shr64 arr 1 in
  let out := N.lor out arr in
  let out := N.land out mask55 in
  let buf := shr64 out 2 in
  let buf := N.land buf mask33 in
  let out := N.land out mask33 in
  let out := add64 out buf in
  let buf := shr64 out 4 in
  let out := add64 out buf in
  let out := N.land out mask0F in
  let out := mul64 out mask01 in
  shr64 out 56.

(* distance.py:71-88 (_hamming_weight_single) *)
Definition hamming_weight_single (val : N) : N :=
  let out := shr64 val 1 in
  let out := N.land out mask55 in
  let out := sub64 val out in
  let buf := shr64 out 2 in
  let buf := N.land buf mask33 in
  let out := N.land out mask33 in
  let out := add64 out buf in
  let buf := shr64 out 4 in
  let out := add64 out buf in
  let out := N.land out mask0F in
  let out := mul64 out mask01 in
  shr64 out 56.

(* distance.py:91-108 (_symplectic_weight_single) *)
Definition symplectic_weight_single (val : N) : N :=
  let out := shr64 val 1 in
  let out := N.lor out val in
  let out := N.land out mask55 in
  let buf := shr64 out 2 in
  let buf := N.land buf mask33 in
  let out := N.land out mask33 in
  let out := add64 out buf in
  let buf := shr64 out 4 in
  let out := add64 out buf in
  let out := N.land out mask0F in
  let out := mul64 out mask01 in
  shr64 out 56.

(* ---------------------------------------------------------------------------------------- specification *)
(* number of one bits among the bits 0 .. n-1; number of positions i < n such that bit 2i or bit 2i+1 is set *)
Definition b2n (b : bool) : N := if b then 1 else 0.
Fixpoint ones (n : nat) (x : N) : N :=
  match n with O => 0 | S k => b2n (N.testbit x (N.of_nat k)) + ones k x end.
Fixpoint pairs (n : nat) (x : N) : N :=
  match n with
  | O => 0
  | S k => b2n (N.testbit x (2 * N.of_nat k) || N.testbit x (2 * N.of_nat k + 1)) + pairs k x
  end.

(* ------------------------------------------------------------------------------------------------ proofs *)
(* bits of 2^k * y + b with b < 2^k *)
Lemma testbit_low k y b i : b < 2 ^ k -> i < k -> N.testbit (2 ^ k * y + b) i = N.testbit b i.
Proof.
  intros hb hi. rewrite <- (N.mod_pow2_bits_low (2 ^ k * y + b) k i hi).
  rewrite N.add_comm, N.mul_comm, N.mod_add by (apply N.pow_nonzero; lia).
  now rewrite N.mod_small.
Qed.

Lemma testbit_high k y b i : b < 2 ^ k -> N.testbit (2 ^ k * y + b) (i + k) = N.testbit y i.
Proof.
  intros hb. rewrite <- N.div_pow2_bits.
  rewrite N.mul_comm, N.div_add_l by (apply N.pow_nonzero; lia).
  rewrite N.div_small by assumption. f_equal. lia.
Qed.

Lemma land_lt a b k : a < 2 ^ k -> N.land a b < 2 ^ k.
Proof.
  intros h. destruct (N.eq_dec (N.land a b) 0) as [-> | nz]; [lia|].
  assert (N.land a b = N.land a b mod 2 ^ k) as ->; [|apply N.mod_lt, N.pow_nonzero; lia].
  apply N.bits_inj. intro i. destruct (N.lt_ge_cases i k) as [lt | ge].
  - now rewrite N.mod_pow2_bits_low.
  - rewrite N.mod_pow2_bits_high by assumption. rewrite N.land_spec.
    rewrite <- (N.mod_small a (2 ^ k)) by assumption. now rewrite N.mod_pow2_bits_high.
Qed.

Lemma lor_lt a b k : a < 2 ^ k -> b < 2 ^ k -> N.lor a b < 2 ^ k.
Proof.
  intros ha hb. assert (N.lor a b = N.lor a b mod 2 ^ k) as ->; [|apply N.mod_lt, N.pow_nonzero; lia].
  apply N.bits_inj. intro i. destruct (N.lt_ge_cases i k) as [lt | ge].
  - now rewrite N.mod_pow2_bits_low.
  - rewrite N.mod_pow2_bits_high by assumption. rewrite N.lor_spec.
    rewrite <- (N.mod_small a (2 ^ k)), <- (N.mod_small b (2 ^ k)) by assumption.
    now rewrite !N.mod_pow2_bits_high.
Qed.

Lemma land_split k y b m c : b < 2 ^ k -> c < 2 ^ k ->
  N.land (2 ^ k * y + b) (2 ^ k * m + c) = 2 ^ k * N.land y m + N.land b c.
Proof.
  intros hb hc. assert (hl := land_lt b c k hb). apply N.bits_inj. intro i. rewrite N.land_spec.
  destruct (N.lt_ge_cases i k) as [lt | ge].
  - rewrite !testbit_low by assumption. now rewrite N.land_spec.
  - replace i with ((i - k) + k) by lia. rewrite !testbit_high by assumption. now rewrite N.land_spec.
Qed.

Lemma lor_split k y b m c : b < 2 ^ k -> c < 2 ^ k ->
  N.lor (2 ^ k * y + b) (2 ^ k * m + c) = 2 ^ k * N.lor y m + N.lor b c.
Proof.
  intros hb hc. assert (hl := lor_lt b c k hb hc). apply N.bits_inj. intro i. rewrite N.lor_spec.
  destruct (N.lt_ge_cases i k) as [lt | ge].
  - rewrite !testbit_low by assumption. now rewrite N.lor_spec.
  - replace i with ((i - k) + k) by lia. rewrite !testbit_high by assumption. now rewrite N.lor_spec.
Qed.

(* n copies of the byte c *)
Fixpoint rep (n : nat) (c : N) : N := match n with O => 0 | S k => 256 * rep k c + c end.

(* a word, byte by byte (least significant first) *)
Fixpoint word (bs : list N) : N := match bs with [] => 0 | b :: r => 256 * word r + b end.

Fixpoint bytes (n : nat) (x : N) : list N :=
  match n with O => [] | S k => (x mod 256) :: bytes k (x / 256) end.

Lemma word_bytes n x : x < 256 ^ N.of_nat n -> word (bytes n x) = x.
Proof.
  revert x. induction n as [|n IH]; intros x h.
  - simpl in *. lia.
  - cbn [bytes word]. rewrite IH.
    + pose proof (N.div_mod' x 256). lia.
    + apply N.div_lt_upper_bound; [lia|]. rewrite Nat2N.inj_succ, N.pow_succ_r' in h. exact h.
Qed.

Lemma bytes_lt n x : Forall (fun b => b < 256) (bytes n x).
Proof. revert x. induction n as [|n IH]; intro x; cbn; constructor; auto. apply N.mod_lt. lia. Qed.

Lemma bytes_length n x : length (bytes n x) = n.
Proof. revert x. induction n as [|n IH]; intro x; cbn; auto. Qed.

(* all numbers below n, for exhaustive checks over bytes *)
Fixpoint below (n : nat) : list N := match n with O => [] | S k => N.of_nat k :: below k end.
Lemma below_In n x : x < N.of_nat n -> In x (below n).
Proof.
  induction n as [|n IH]; intro h; [lia|]. cbn [below].
  destruct (N.eq_dec x (N.of_nat n)) as [-> | ne]; [now left | right; apply IH; lia].
Qed.
Lemma check1 (P : N -> bool) n : forallb P (below n) = true -> forall x, x < N.of_nat n -> P x = true.
Proof. intros h x lt. rewrite forallb_forall in h. apply h, below_In, lt. Qed.
Lemma check2 (P : N -> N -> bool) n m : forallb (fun x => forallb (P x) (below m)) (below n) = true ->
  forall x y, x < N.of_nat n -> y < N.of_nat m -> P x y = true.
Proof. intros h x y lx ly. apply (check1 (P x) m); [|assumption]. exact (check1 _ n h x lx). Qed.

Lemma shiftr_split s x b : s <= 8 -> b < 256 ->
  N.shiftr (256 * x + b) s = 256 * N.shiftr x s + (N.shiftr b s + 2 ^ (8 - s) * (x mod 2 ^ s)).
Proof.
  intros hs hb. rewrite !N.shiftr_div_pow2.
  assert (e : 256 = 2 ^ s * 2 ^ (8 - s)) by (rewrite <- N.pow_add_r; replace (s + (8 - s)) with 8 by lia; reflexivity).
  assert (nz : 2 ^ s <> 0) by (apply N.pow_nonzero; lia).
  pose proof (N.div_mod' x (2 ^ s)) as dx.
  rewrite e at 1. rewrite <- N.mul_assoc, (N.mul_comm (2 ^ s) (2 ^ (8 - s) * x)).
  rewrite N.div_add_l by assumption. rewrite e.
  set (q := x / 2 ^ s) in *. set (r := x mod 2 ^ s) in *. clearbody q r. subst x. nia.
Qed.

(* a masked shift acts byte by byte when the mask hides the bits coming from the next byte *)
Lemma shift_mask s c (h8 : s <= 8) : c < 256 ->
  (forall b r, b < 256 -> r < 2 ^ s ->
     N.land (N.shiftr b s + 2 ^ (8 - s) * r) c = N.land (N.shiftr b s) c /\ N.shiftr b s + 2 ^ (8 - s) * r < 256) ->
  forall bs, Forall (fun b => b < 256) bs ->
    N.land (N.shiftr (word bs) s) (rep (length bs) c) = word (map (fun b => N.land (N.shiftr b s) c) bs).
Proof.
  intros hc key bs h. induction h as [|b bs hb _ IH]; cbn [word map length rep].
  - now rewrite N.land_0_r.
  - rewrite shiftr_split by assumption.
    assert (hr : word bs mod 2 ^ s < 2 ^ s) by (apply N.mod_lt, N.pow_nonzero; lia).
    destruct (key b _ hb hr) as [e lt].
    change 256 with (2 ^ 8). rewrite land_split by assumption. now rewrite IH, e.
Qed.

Lemma mask_bytes c : c < 256 -> forall bs, Forall (fun b => b < 256) bs ->
  N.land (word bs) (rep (length bs) c) = word (map (fun b => N.land b c) bs).
Proof.
  intros hc bs h. induction h as [|b bs hb _ IH]; cbn [word map length rep]; [now rewrite N.land_0_r|].
  change 256 with (2 ^ 8). rewrite land_split by assumption. now rewrite IH.
Qed.

Lemma lor_bytes (f g : N -> N) : forall bs, Forall (fun b => f b < 256 /\ g b < 256) bs ->
  N.lor (word (map f bs)) (word (map g bs)) = word (map (fun b => N.lor (f b) (g b)) bs).
Proof.
  intros bs h. induction h as [|b bs [hf hg] _ IH]; cbn [word map]; [reflexivity|].
  change 256 with (2 ^ 8). rewrite lor_split by assumption. now rewrite IH.
Qed.

Lemma word_add (f g : N -> N) bs : word (map f bs) + word (map g bs) = word (map (fun b => f b + g b) bs).
Proof. induction bs as [|b bs IH]; cbn [word map]; [reflexivity|]. rewrite <- IH. lia. Qed.

Lemma word_sub (f g : N -> N) bs : Forall (fun b => g b <= f b) bs ->
  word (map f bs) - word (map g bs) = word (map (fun b => f b - g b) bs) /\ word (map g bs) <= word (map f bs).
Proof.
  intro h. induction h as [|b bs hb _ [IH le]]; cbn [word map]; [split; lia|].
  rewrite <- IH. split; lia.
Qed.

Lemma word_lt bs : Forall (fun b => b < 256) bs -> word bs < 256 ^ N.of_nat (length bs).
Proof.
  intro h. induction h as [|b bs hb _ IH]; cbn [word length]; [reflexivity|].
  rewrite Nat2N.inj_succ, N.pow_succ_r'. lia.
Qed.

Lemma Forall_map_lt (f : N -> N) bs : (forall b, b < 256 -> f b < 256) -> Forall (fun b => b < 256) bs ->
  Forall (fun b => b < 256) (map f bs).
Proof. intros hf h. induction h; cbn; constructor; auto. Qed.

(* the middle part of the four routines: from 2-bit fields to bytes *)
Definition fold_fields (out : N) : N :=
  let buf := shr64 out 2 in
  let buf := N.land buf mask33 in
  let out := N.land out mask33 in
  let out := add64 out buf in
  let buf := shr64 out 4 in
  let out := add64 out buf in
  N.land out mask0F.
Definition ffb (b : N) : N := let o := N.land b 0x33 + N.land (N.shiftr b 2) 0x33 in N.land (o + N.shiftr o 4) 0x0F.

Definition p64 : 256 ^ N.of_nat 8 = w64 := eq_refl.
(* every 2-bit field of the byte is at most 2 *)
Definition good2 (b : N) : bool := forallb (fun i => N.land (N.shiftr b (2 * i)) 3 <=? 2) (below 4).
(* both 4-bit fields of the byte are at most 4 *)
Definition good4 (b : N) : bool := (b mod 16 <=? 4) && (b / 16 <=? 4).

Lemma word_mod16 bs : word bs mod 16 = hd 0 bs mod 16.
Proof.
  destruct bs as [|b bs]; [reflexivity|]. cbn [word hd].
  replace (256 * word bs + b) with (b + (16 * word bs) * 16) by lia.
  now rewrite N.mod_add by lia.
Qed.

Lemma add_shift4 : forall bs, Forall (fun b => good4 b = true) bs ->
  N.land (word bs + N.shiftr (word bs) 4) (rep (length bs) 0x0F) = word (map (fun b => N.land (b + N.shiftr b 4) 0x0F) bs)
  /\ word bs + N.shiftr (word bs) 4 < 256 ^ N.of_nat (length bs).
Proof.
  intros bs h. induction h as [|b bs hb h [IH lt]]; [now split|].
  cbn [word map length rep].
  assert (hb' : b < 256).
  { unfold good4 in hb. apply andb_prop in hb. destruct hb as [h1 h2]. apply N.leb_le in h1, h2.
    pose proof (N.div_mod' b 16). lia. }
  assert (hr : word bs mod 16 < 16 /\ word bs mod 16 <= 4).
  { split; [apply N.mod_lt; lia|]. rewrite word_mod16. destruct h as [|c bs hc _]; [cbn; lia|]. cbn [hd].
    unfold good4 in hc. apply andb_prop in hc. destruct hc as [h1 _]. now apply N.leb_le in h1. }
  destruct hr as [hr hr4].
  rewrite shiftr_split by (assumption || lia).
  change (2 ^ (8 - 4)) with 16. change (2 ^ 4) with 16.
  set (r := word bs mod 16) in *.
  replace (256 * word bs + b + (256 * N.shiftr (word bs) 4 + (N.shiftr b 4 + 16 * r)))
    with (256 * (word bs + N.shiftr (word bs) 4) + (b + N.shiftr b 4 + 16 * r)) by lia.
  assert (c := check2 (fun b r => negb (good4 b) || negb (r <=? 4) ||
     ((b + N.shiftr b 4 + 16 * r <? 256) && (N.land (b + N.shiftr b 4 + 16 * r) 15 =? N.land (b + N.shiftr b 4) 15)))
     256 16 eq_refl b r hb' hr).
  cbv beta in c. rewrite hb in c. apply N.leb_le in hr4. rewrite hr4 in c. cbn [negb orb] in c.
  apply andb_prop in c. destruct c as [c1 c2]. apply N.ltb_lt in c1. apply N.eqb_eq in c2.
  split.
  - change 256 with (2 ^ 8) at 1 2. rewrite land_split by (assumption || reflexivity). now rewrite IH, c2.
  - rewrite Nat2N.inj_succ, N.pow_succ_r'. lia.
Qed.

Lemma good2_lt b : b < 256 -> good2 b = true ->
  good4 (N.land b 0x33 + N.land (N.shiftr b 2) 0x33) = true /\ N.land b 0x33 + N.land (N.shiftr b 2) 0x33 < 256.
Proof.
  intros hb hg.
  assert (c := check1 (fun b => negb (good2 b) || (good4 (N.land b 0x33 + N.land (N.shiftr b 2) 0x33) &&
     (N.land b 0x33 + N.land (N.shiftr b 2) 0x33 <? 256))) 256 eq_refl b hb).
  cbv beta in c. rewrite hg in c. cbn [negb orb] in c. apply andb_prop in c. destruct c as [c1 c2].
  now apply N.ltb_lt in c2.
Qed.

Lemma fold_fields_bytes bs : length bs = 8%nat -> Forall (fun b => b < 256) bs -> Forall (fun b => good2 b = true) bs ->
  fold_fields (word bs) = word (map ffb bs).
Proof.
  intros len h hg. unfold fold_fields, shr64.
  assert (r33 : mask33 = rep (length bs) 0x33) by (rewrite len; reflexivity).
  rewrite r33, shift_mask; [|lia|lia| |assumption].
  2:{ intros b r hb hr.
      assert (c := check2 (fun b r => (N.land (N.shiftr b 2 + 2 ^ (8 - 2) * r) 51 =? N.land (N.shiftr b 2) 51)
                                      && (N.shiftr b 2 + 2 ^ (8 - 2) * r <? 256)) 256 4 eq_refl b r hb hr).
      apply andb_prop in c. destruct c as [c1 c2]. now apply N.eqb_eq in c1; apply N.ltb_lt in c2. }
  rewrite mask_bytes by (assumption || lia).
  unfold add64. rewrite word_add.
  set (f := fun b => N.land b 51 + N.land (N.shiftr b 2) 51).
  assert (hf : Forall (fun b => f b < 256 /\ good4 (f b) = true) bs).
  { apply Forall_forall. intros b hin. rewrite Forall_forall in h, hg.
    destruct (good2_lt b (h b hin) (hg b hin)). now split. }
  assert (lf : word (map f bs) < w64).
  { rewrite <- p64, <- len, <- (map_length f bs). apply word_lt. apply Forall_map.
    eapply Forall_impl; [|exact hf]. now intros b []. }
  rewrite (N.mod_small _ _ lf).
  assert (g4 : Forall (fun b => good4 b = true) (map f bs)).
  { apply Forall_map. eapply Forall_impl; [|exact hf]. now intros b []. }
  destruct (add_shift4 _ g4) as [e lt].
  rewrite map_length, len in lt. rewrite p64 in lt. rewrite (N.mod_small _ _ lt).
  replace mask0F with (rep (length (map f bs)) 0x0F) by (rewrite map_length, len; reflexivity).
  rewrite e, map_map. reflexivity.
Qed.

(* the multiplication adds up eight bytes *)
Lemma mul_bytes bs : length bs = 8%nat -> Forall (fun b => b <= 8) bs ->
  shr64 (mul64 (word bs) mask01) 56 = fold_right N.add 0 bs.
Proof.
  intros len h.
  destruct bs as [|b0 [|b1 [|b2 [|b3 [|b4 [|b5 [|b6 [|b7 [|]]]]]]]]]; try discriminate len.
  repeat match goal with H : Forall _ (_ :: _) |- _ => inversion H; clear H; subst end.
  unfold shr64, mul64. rewrite N.shiftr_div_pow2. cbn [word fold_right].
  set (top := b0 + (b1 + (b2 + (b3 + (b4 + (b5 + (b6 + (b7 + 0)))))))).
  set (low := b0 + 256 * ((b0 + b1) + 256 * ((b0 + b1 + b2) + 256 * ((b0 + b1 + b2 + b3) + 256 * ((b0 + b1 + b2 + b3 + b4)
     + 256 * ((b0 + b1 + b2 + b3 + b4 + b5) + 256 * (b0 + b1 + b2 + b3 + b4 + b5 + b6))))))).
  set (q := (b1 + b2 + b3 + b4 + b5 + b6 + b7) + 256 * ((b2 + b3 + b4 + b5 + b6 + b7) + 256 * ((b3 + b4 + b5 + b6 + b7)
     + 256 * ((b4 + b5 + b6 + b7) + 256 * ((b5 + b6 + b7) + 256 * ((b6 + b7) + 256 * b7)))))).
  assert (e : (256 * (256 * (256 * (256 * (256 * (256 * (256 * (256 * 0 + b7) + b6) + b5) + b4) + b3) + b2) + b1) + b0) * mask01
              = (top * 2 ^ 56 + low) + q * w64).
  { unfold top, low, q, mask01, w64. change (2 ^ 56) with 72057594037927936. change (2 ^ 64) with 18446744073709551616. lia. }
  assert (hl : low < 2 ^ 56). { unfold low. change (2 ^ 56) with 72057594037927936. lia. }
  assert (ht : top < 256) by (unfold top; lia).
  clearbody top low q.
  rewrite e, N.mod_add by discriminate.
  rewrite N.mod_small by (unfold w64; change (2 ^ 64) with (256 * 2 ^ 56); change (2 ^ 56) with 72057594037927936 in *; lia).
  rewrite N.div_add_l by discriminate. rewrite N.div_small by assumption. lia.
Qed.

(* the specification, byte by byte *)
Lemma ones_split n x b : b < 256 -> ones (8 + n) (256 * x + b) = ones n x + ones 8 b.
Proof.
  intro hb. induction n as [|n IH].
  - cbn [plus]. change (ones 0 x) with 0. rewrite N.add_0_l. unfold ones.
    repeat (rewrite (testbit_low 8 x b) by (assumption || reflexivity)). reflexivity.
  - replace (8 + S n)%nat with (S (8 + n)) by lia. cbn [ones plus] in *.
    rewrite IH. rewrite N.add_assoc. f_equal.
    replace (N.of_nat (S (S (S (S (S (S (S (S n))))))))) with (N.of_nat n + 8) by lia.
    change 256 with (2 ^ 8). rewrite testbit_high by assumption. reflexivity.
Qed.

Lemma ones_word bs : Forall (fun b => b < 256) bs -> ones (8 * length bs) (word bs) = fold_right N.add 0 (map (ones 8) bs).
Proof.
  intro h. induction h as [|b bs hb _ IH]; [reflexivity|].
  cbn [length map fold_right word]. replace (8 * S (length bs))%nat with (8 + 8 * length bs)%nat by lia.
  rewrite ones_split by assumption. rewrite IH. lia.
Qed.

Lemma pairs_split n x b : b < 256 -> pairs (4 + n) (256 * x + b) = pairs n x + pairs 4 b.
Proof.
  intro hb. induction n as [|n IH].
  - cbn [plus]. change (pairs 0 x) with 0. rewrite N.add_0_l. unfold pairs.
    repeat (rewrite (testbit_low 8 x b) by (assumption || reflexivity)). reflexivity.
  - replace (4 + S n)%nat with (S (4 + n)) by lia. cbn [pairs plus] in *.
    rewrite IH. rewrite N.add_assoc. f_equal.
    replace (2 * N.of_nat (S (S (S (S n)))) + 1) with (2 * N.of_nat n + 1 + 8) by lia.
    replace (2 * N.of_nat (S (S (S (S n))))) with (2 * N.of_nat n + 8) by lia.
    change 256 with (2 ^ 8). rewrite !testbit_high by assumption. reflexivity.
Qed.

Lemma pairs_word bs : Forall (fun b => b < 256) bs -> pairs (4 * length bs) (word bs) = fold_right N.add 0 (map (pairs 4) bs).
Proof.
  intro h. induction h as [|b bs hb _ IH]; [reflexivity|].
  cbn [length map fold_right word]. replace (4 * S (length bs))%nat with (4 + 4 * length bs)%nat by lia.
  rewrite pairs_split by assumption. rewrite IH. lia.
Qed.

Lemma mask55_shift bs : length bs = 8%nat -> Forall (fun b => b < 256) bs ->
  N.land (N.shiftr (word bs) 1) mask55 = word (map (fun b => N.land (N.shiftr b 1) 0x55) bs).
Proof.
  intros len h. replace mask55 with (rep (length bs) 0x55) by (rewrite len; reflexivity).
  rewrite shift_mask; [reflexivity|lia|lia| |assumption].
  intros b r hb hr.
  assert (c := check2 (fun b r => (N.land (N.shiftr b 1 + 2 ^ (8 - 1) * r) 85 =? N.land (N.shiftr b 1) 85)
                                  && (N.shiftr b 1 + 2 ^ (8 - 1) * r <? 256)) 256 2 eq_refl b r hb hr).
  apply andb_prop in c. destruct c as [c1 c2]. now apply N.eqb_eq in c1; apply N.ltb_lt in c2.
Qed.

Lemma hamming_weight_correct x : x < w64 -> hamming_weight x = ones 64 x.
Proof.
  intro hx. set (bs := bytes 8 x).
  assert (ex : word bs = x) by (apply word_bytes; exact hx).
  assert (len : length bs = 8%nat) by apply bytes_length.
  assert (hb : Forall (fun b => b < 256) bs) by apply bytes_lt.
  clearbody bs. subst x.
  replace 64%nat with (8 * length bs)%nat by (rewrite len; reflexivity). rewrite ones_word by assumption.
  change (hamming_weight (word bs)) with
    (shr64 (mul64 (fold_fields (sub64 (word bs) (N.land (N.shiftr (word bs) 1) mask55))) mask01) 56).
  rewrite mask55_shift by assumption.
  set (g := fun b => N.land (N.shiftr b 1) 0x55).
  assert (hg : Forall (fun b => g b <= b) bs).
  { eapply Forall_impl; [|exact hb]. intros b lt. cbv beta in lt.
    assert (c := check1 (fun b => g b <=? b) 256 eq_refl b lt). now apply N.leb_le in c. }
  destruct (word_sub (fun b => b) g bs hg) as [e le]. rewrite map_id in e, le.
  assert (es : sub64 (word bs) (word (map g bs)) = word (map (fun b => b - g b) bs)).
  { unfold sub64. replace (word bs + w64 - word (map g bs)) with ((word bs - word (map g bs)) + 1 * w64) by lia.
    rewrite N.mod_add by discriminate. rewrite e. apply N.mod_small. rewrite <- e. lia. }
  rewrite es.
  assert (chk : forall b, b < 256 -> (b - g b <? 256) && good2 (b - g b) && (ffb (b - g b) =? ones 8 b) && (ones 8 b <=? 8) = true)
    by exact (check1 (fun b => (b - g b <? 256) && good2 (b - g b) && (ffb (b - g b) =? ones 8 b) && (ones 8 b <=? 8)) 256 eq_refl).
  assert (chk' : Forall (fun b => b - g b < 256 /\ good2 (b - g b) = true /\ ffb (b - g b) = ones 8 b /\ ones 8 b <= 8) bs).
  { eapply Forall_impl; [|exact hb]. intros b lt. cbv beta in lt. specialize (chk b lt).
    apply andb_prop in chk. destruct chk as [chk c4]. apply andb_prop in chk. destruct chk as [chk c3].
    apply andb_prop in chk. destruct chk as [c1 c2].
    apply N.ltb_lt in c1. apply N.eqb_eq in c3. apply N.leb_le in c4. auto. }
  rewrite fold_fields_bytes; [|now rewrite map_length|apply Forall_map|apply Forall_map].
  2,3: eapply Forall_impl; [|exact chk']; now intros b (? & ? & ? & ?).
  rewrite map_map.
  replace (map (fun b => ffb (b - g b)) bs) with (map (ones 8) bs).
  2:{ apply map_ext_in. intros b hin. rewrite Forall_forall in chk'. destruct (chk' b hin) as (_ & _ & c & _). now symmetry. }
  apply mul_bytes; [now rewrite map_length|]. apply Forall_map.
  eapply Forall_impl; [|exact chk']. now intros b (? & ? & ? & ?).
Qed.

Lemma symplectic_weight_correct x : x < w64 -> symplectic_weight x = pairs 32 x.
Proof.
  intro hx. set (bs := bytes 8 x).
  assert (ex : word bs = x) by (apply word_bytes; exact hx).
  assert (len : length bs = 8%nat) by apply bytes_length.
  assert (hb : Forall (fun b => b < 256) bs) by apply bytes_lt.
  clearbody bs. subst x.
  replace 32%nat with (4 * length bs)%nat by (rewrite len; reflexivity). rewrite pairs_word by assumption.
  change (symplectic_weight (word bs)) with
    (shr64 (mul64 (fold_fields (N.land (N.lor (N.shiftr (word bs) 1) (word bs)) mask55)) mask01) 56).
  rewrite N.land_lor_distr_l, mask55_shift by assumption.
  replace mask55 with (rep (length bs) 0x55) by (rewrite len; reflexivity). rewrite mask_bytes by (assumption || lia).
  set (g := fun b => N.land (N.shiftr b 1) 0x55). set (f := fun b => N.land b 0x55).
  assert (chk : forall b, b < 256 -> (g b <? 256) && (f b <? 256) && (N.lor (g b) (f b) <? 256) && good2 (N.lor (g b) (f b))
      && (ffb (N.lor (g b) (f b)) =? pairs 4 b) && (pairs 4 b <=? 8) = true)
    by exact (check1 (fun b => (g b <? 256) && (f b <? 256) && (N.lor (g b) (f b) <? 256) && good2 (N.lor (g b) (f b))
      && (ffb (N.lor (g b) (f b)) =? pairs 4 b) && (pairs 4 b <=? 8)) 256 eq_refl).
  assert (chk' : Forall (fun b => (g b < 256 /\ f b < 256) /\ N.lor (g b) (f b) < 256 /\ good2 (N.lor (g b) (f b)) = true
      /\ ffb (N.lor (g b) (f b)) = pairs 4 b /\ pairs 4 b <= 8) bs).
  { eapply Forall_impl; [|exact hb]. intros b lt. cbv beta in lt. specialize (chk b lt).
    repeat match goal with H : _ && _ = true |- _ => apply andb_prop in H; destruct H end.
    repeat match goal with H : (_ <? _) = true |- _ => apply N.ltb_lt in H | H : (_ =? _) = true |- _ => apply N.eqb_eq in H
      | H : (_ <=? _) = true |- _ => apply N.leb_le in H end. auto 10. }
  rewrite lor_bytes by (eapply Forall_impl; [|exact chk']; now intros b []).
  rewrite fold_fields_bytes; [|now rewrite map_length|apply Forall_map|apply Forall_map].
  2,3: eapply Forall_impl; [|exact chk']; now intros b (? & ? & ? & ? & ?).
  rewrite map_map.
  replace (map (fun b => ffb (N.lor (g b) (f b))) bs) with (map (pairs 4) bs).
  2:{ apply map_ext_in. intros b hin. rewrite Forall_forall in chk'. destruct (chk' b hin) as (_ & _ & _ & c & _). now symmetry. }
  apply mul_bytes; [now rewrite map_length|]. apply Forall_map.
  eapply Forall_impl; [|exact chk']. now intros b (? & ? & ? & ? & ?).
Qed.

Lemma hamming_weight_single_correct x : x < w64 -> hamming_weight_single x = ones 64 x.
Proof. exact (hamming_weight_correct x). Qed.
Lemma symplectic_weight_single_correct x : x < w64 -> symplectic_weight_single x = pairs 32 x.
Proof. exact (symplectic_weight_correct x). Qed.
