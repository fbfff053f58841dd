(* Block lengths of BCH codes: model of the check in qldpc/codes/classical.py:128-137 (BCHCode.__init__). *)
From mathcomp Require Import all_ssreflect zify.
Set Implicit Arguments.
Unset Strict Implicit.
Unset Printing Implicit Defensive.

(* ============================================================================== model *)
(* strings of digits and capital letters: 0..9 are the characters '0'..'9', and 10..35 are 'A'..'Z' *)
Definition text := seq nat.
(* digits of a number, least significant first; fuel is any number of steps that is large enough *)
Fixpoint digits_loop (base fuel num : nat) : text :=
  if fuel is f.+1 then if num == 0 then [::] else num %% base :: digits_loop base f (num %/ base) else [::].
(* np.base_repr(number, base) (external, as documented by NumPy): None is the ValueError for bases outside of 2..36 *)
Definition base_repr (base number : nat) : option text :=
  if 2 <= base <= 36 then Some (if number == 0 then [:: 0] else rev (digits_loop base number number)) else None.
(* str(k) of an int (external): the decimal digits *)
Definition str_of (k : nat) : text := odflt [::] (base_repr 10 k).
(* python: text * count *)
Definition str_mul (t : text) (count : nat) : text := flatten (nseq count t).
(* classical.py:128-135: does BCHCode(length, dimension, field) get past the check of the block length? field = None is GF(2). What
   follows is up to galois. *)
Definition bch_accepts (field : option nat) (length : nat) : bool :=
  let q := if field is Some q then if q == 0 then 2 else q else 2 in
  if base_repr q length is Some t then t == str_mul (str_of q.-1) (size t) else false.

(* ====================================================================== specification *)
Definition bch_length (q length : nat) : Prop := exists2 m, 0 < m & length = q ^ m - 1.

(* ============================================================================= proofs *)
Lemma digits_value base fuel num : 1 < base -> num <= fuel ->
  num = foldr (fun d v => d + base * v) 0 (digits_loop base fuel num).
Proof.
move=> b1; elim: fuel num => [|f IH] num; first by rewrite leqn0 => /eqP ->.
rewrite /=; case: eqP => [-> // | /eqP n0 h] /=; rewrite -IH.
  by rewrite [LHS](divn_eq num base) addnC mulnC.
by apply: leq_trans (_ : num.-1 <= f); [rewrite -ltnS prednK ?lt0n // ltn_Pdiv // lt0n | rewrite -ltnS prednK // lt0n].
Qed.
Lemma value_nseq base k : 0 < base -> foldr (fun d v => d + base * v) 0 (nseq k base.-1) = base ^ k - 1.
Proof.
move=> b0; elim: k => [|k IH] /=; first by rewrite expn0.
rewrite IH expnS mulnBr muln1; have := expn_gt0 base k; rewrite b0 /= => p.
have : base <= base * base ^ k by rewrite leq_pmulr.
by move: b0; clear; lia.
Qed.
Lemma digits_max base fuel m : 1 < base -> base ^ m - 1 <= fuel -> digits_loop base fuel (base ^ m - 1) = nseq m base.-1.
Proof.
move=> b1; elim: fuel m => [|f IH] [|m] //=; rewrite ?expn0 //.
  rewrite leqn0 subn_eq0 => h; have := leq_trans (leq_pexp2l (ltnW b1) (isT : 1 <= m.+1)) h.
  by rewrite expn1 leqNgt b1.
move=> h; have p : 0 < base ^ m by rewrite expn_gt0 (ltnW b1).
have e : base ^ m.+1 - 1 = (base ^ m - 1) * base + base.-1.
  rewrite expnS mulnBl mul1n mulnC; have := leq_pmull base p; move: b1; clear.
  by set x := _ * _; lia.
have lt : base.-1 < base by rewrite prednK // ltnW.
rewrite ifN; last by rewrite e addn_eq0 negb_and; apply/orP; right; rewrite -lt0n -ltnS prednK // ltnW.
rewrite {1}e modnMDl modn_small // e divnMDl ?(ltnW b1) // divn_small // addn0 IH //.
rewrite -ltnS; apply: leq_trans h; rewrite e -addn1 leq_add //; first by rewrite leq_pmulr // ltnW.
by rewrite -ltnS prednK // ltnW.
Qed.
Lemma str_small k : k < 10 -> str_of k = [:: k].
Proof. by do 10 case: k => [//|k]. Qed.
Lemma flatten_nseq1 (x : nat) k : flatten (nseq k [:: x]) = nseq k x.
Proof. by elim: k => //= k ->. Qed.
Lemma size_str k : 9 < k -> 1 < size (str_of k).
Proof.
move=> h; rewrite /str_of /base_repr /= ifN; last by rewrite -lt0n (leq_trans _ h).
have d0 : 0 < k %/ 10 by rewrite divn_gt0.
rewrite size_rev; case: k h d0 => [|[|k]] // h; set q := _ %/ 10 => d0 /=; rewrite -/q.
by case: q d0.
Qed.
Lemma size_flatten_nseq (t : text) k : size (flatten (nseq k t)) = k * size t.
Proof. by elim: k => //= k IH; rewrite size_cat IH mulSn. Qed.
