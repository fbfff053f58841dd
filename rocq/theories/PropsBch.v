(* Property C96: block lengths of BCH codes (qldpc/codes/classical.py, BCHCode). *)
From mathcomp Require Import all_ssreflect zify.
From Verif Require Import BchLength.
Set Implicit Arguments.
Unset Strict Implicit.
Unset Printing Implicit Defensive.

(* for fields of at most ten elements, exactly the lengths q^m - 1 with m > 0 are accepted *)
Theorem C96_accepts_partial q length : 2 <= q <= 10 -> bch_accepts (Some q) length <-> bch_length q length.
Proof.
move=> /andP [q2 q10]; have q36 : 2 <= q <= 36 by rewrite q2 (leq_trans q10).
have q0 : (q == 0) = false by apply/eqP => e; rewrite e in q2.
have q1 : q.-1 < 10 by rewrite -ltnS prednK // (leq_trans _ q2).
rewrite /bch_accepts q0 /base_repr q36 /str_mul str_small // flatten_nseq1; case: (length =P 0) => [-> /= | /eqP l0].
  split=> [| [m m0 e]]; first by move/eqP => -[]; move: q2; clear; lia.
  by have := leq_pexp2l (ltnW q2) m0; rewrite expn1; move: e q2; clear; lia.
rewrite size_rev; split=> [/eqP h | [m m0 e]].
- have {h} h : digits_loop q length length = nseq (size (digits_loop q length length)) q.-1.
    by rewrite -[LHS]revK h rev_nseq.
  exists (size (digits_loop q length length)); first by case: (length) l0 => //= l _; case: ifP.
  by rewrite -value_nseq ?(ltnW q2) // -h -digits_value.
- by rewrite e digits_max // size_nseq rev_nseq.
Qed.
(* the default field is GF(2) *)
Theorem C96_default length : bch_accepts None length <-> bch_length 2 length.
Proof. exact: (@C96_accepts_partial 2 length isT). Qed.

(* A finding: over fields of more than ten elements, there are no BCH codes: every block length is refused, although q^m - 1 is one
   for every m. (The largest digit of the length is a letter, and str(q - 1) has two digits.) *)
Theorem C96_large_refuted q length : 10 < q -> bch_accepts (Some q) length = false.
Proof.
move=> q10; have q0 : (q == 0) = false by apply/eqP => e; rewrite e in q10.
rewrite /bch_accepts q0 /base_repr; case: ifP => // _; set t := (if _ then _ else _).
apply/eqP => h; have := congr1 size h; rewrite size_flatten_nseq => e.
have s1 : 1 < size (str_of q.-1) by apply: size_str; rewrite -ltnS prednK // (leq_trans _ q10).
have t0 : 0 < size t.
  by rewrite /t; case: (length =P 0) => // /eqP; case: (length) => //= l _; rewrite rev_cons size_rcons.
by move: e; rewrite -{1}[size t]muln1 => /eqP; rewrite eqn_pmul2l // => /eqP e; rewrite -e in s1.
Qed.
Theorem C96_GF16_refuted : exists q length, bch_length q length /\ q = 2 ^ 4 /\ bch_accepts (Some q) length = false.
Proof. by exists 16, 15; split; [exists 1 | split]. Qed.

(* non-vacuity *)
Example C96_ex : [/\ bch_length 2 15, bch_accepts None 15, bch_accepts (Some 3) 26, bch_accepts (Some 9) 80
  & [&& ~~ bch_accepts None 14, ~~ bch_accepts (Some 3) 15, ~~ bch_accepts (Some 4) 0 & base_repr 16 255 == Some [:: 15; 15]]].
Proof. by split; [exists 4 | vm_compute..]. Qed.

Print Assumptions C96_accepts_partial.
Print Assumptions C96_default.
Print Assumptions C96_large_refuted.
Print Assumptions C96_GF16_refuted.
