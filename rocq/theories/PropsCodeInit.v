(* Property C99: codes built from arrays and from codes. *)
From mathcomp Require Import all_ssreflect all_algebra zify.
From Verif Require Import LinAlg RowReduce Classical ClassicalProofs ClassicalProofs2 Symplectic Quantum QuantumProofs CodeInit.
From Verif Require Import PropsClassical PropsQuantum.
Set Implicit Arguments.
Unset Strict Implicit.
Unset Printing Implicit Defensive.
Import GRing.Theory.
Local Open Scope ring_scope.

(* ---- specification *)
Definition prime_power (q : nat) : Prop := exists p m : nat, [/\ prime p, (0 < m)%N & q = (p ^ m)%N].
(* the entries name members of the field of order q *)
Definition over_field (q : nat) (a : arr) : Prop :=
  forall r x, r \in a_rows a -> x \in r -> exists2 k : nat, (k < q)%N & x = k%:Z.

Lemma is_orderP q : is_order q <-> prime_power q.
Proof.
split=> [/eqP h | [p [m [pp pm ->]]]]; last first.
  by rewrite /is_order primesX // primes_prime.
case e: (primes q) h => [|p []] // _; have : p \in primes q by rewrite e mem_head.
rewrite mem_primes => /and3P [pp q0 dv]; have /p_natP [k ek] : p.-nat q by rewrite /pnat q0 e /= andbT inE.
by exists p, k; split=> //; case: k ek dv => // ->; rewrite expn0 dvdn1 => /eqP e1; move: pp; rewrite e1.
Qed.
Lemma in_rangeP q a : in_range q a <-> over_field q a.
Proof.
split=> [/allP h r x hr hx | h].
  by have /allP /(_ x hx) := h r hr; case: x hx => [k|k] _ // hk; exists k.
by apply/allP => r hr; apply/allP => x hx; have [k hk ->] := h r x hr hx; rewrite le0z_nat ltz_nat hk.
Qed.

(* from integers: the code is over the requested field, F_2 without a request (or with 0), with the given entries and nothing
   cached; ValueError exactly for orders that are not prime powers and entries that are not members of the field *)
Theorem C99_ints a field : let q := if field is Some f then if f == 0%N then 2%N else f else 2%N in
  (prime_power q /\ over_field q a ->
    classical_init (FromInts a) field = Made (Obj Classical q (Some a) None None None) /\
    qudit_init (FromInts a) field = Made (Obj Qudit q (Some a) None None None)) /\
  (~ (prime_power q /\ over_field q a) ->
    classical_init (FromInts a) field = ValueError /\ qudit_init (FromInts a) field = ValueError).
Proof.
move=> q; rewrite /classical_init /qudit_init /= -/q.
case: (boolP (is_order q)) => h1 /=; case: (boolP (in_range q a)) => h2 /=; split=> // h; exfalso.
- by apply: h; split; [apply/is_orderP | apply/in_rangeP].
- by case: h => _ /in_rangeP; rewrite (negbTE h2).
- by case: h => /is_orderP; rewrite (negbTE h1).
- by case: h => /is_orderP; rewrite (negbTE h1).
Qed.

(* from a code (other than a CSSCode): the same field and matrix; a request for another field raises ValueError *)
Theorem C99_code c m field : o_matrix c = Some m ->
  (field = None \/ field = Some (o_order c) -> exists o o',
     [/\ classical_init (FromCode c) field = Made o, qudit_init (FromCode c) field = Made o',
         (o_order o = o_order c /\ o_matrix o = Some m) & (o_order o' = o_order c /\ o_matrix o' = Some m)]) /\
  (forall f, field = Some f -> f <> o_order c ->
     classical_init (FromCode c) field = ValueError /\ qudit_init (FromCode c) field = ValueError).
Proof.
move=> em; split=> [h | f -> /eqP nf].
  rewrite /classical_init /qudit_init /= em.
  have -> : (if field is Some f then if f != o_order c then ValueError else
    Made (Obj Qudit (o_order c) (Some m) (o_dim c) (o_dist c) None) else Made (Obj Qudit (o_order c) (Some m) (o_dim c) (o_dist c) None)) =
    Made (Obj Qudit (o_order c) (Some m) (o_dim c) (o_dist c) None) by case: h => -> //; rewrite eqxx.
  have -> : (if field is Some f then if f != o_order c then ValueError else
    Made (Obj Classical (o_order c) (Some m) (o_dim c) (o_dist c) None) else Made (Obj Classical (o_order c) (Some m) (o_dim c) (o_dist c) None)) =
    Made (Obj Classical (o_order c) (Some m) (o_dim c) (o_dist c) None) by case: h => -> //; rewrite eqxx.
  by case: (o_kind c); do 2 eexists; split; try reflexivity; split.
by rewrite /classical_init /qudit_init /= em nf.
Qed.
(* a copy of a ClassicalCode is the same object, with everything that is cached; so it has the same code words, dimension
   and generator *)
Theorem C99_copy c m : o_kind c = Classical -> o_matrix c = Some m -> classical_init (FromCode c) None = Made c.
Proof. by case: c => k q mm d ds g /= -> ->. Qed.
(* if nothing is cached, what the new code reports is right, whatever kind of code it was made from *)
Theorem C99_not_cached p c m o : o_matrix c = Some m -> o_dim c = None -> o_gen c = None ->
  (forall r, r \in a_rows m -> size r = a_cols m) -> classical_init (FromCode c) None = Made o -> code_ok (as_ccode p o).
Proof.
move=> em ed eg hw; rewrite /classical_init /= em ed eg.
have wM : wf (a_cols m) (mod_mat p m) by apply/allP => r /mapP [r' /hw e ->]; rewrite size_map e.
by case: (o_kind c) => -[<-]; rewrite /as_ccode /=; split.
Qed.

(* a CSSCode is made exactly if its two parts are, and have the same field and length *)
Theorem C99_css x z field : (exists o, (css_init x z field).1 = Made o) <->
  exists cx cz, [/\ classical_init x field = Made cx, classical_init z field = Made cz, o_order cx = o_order cz &
                    omap a_cols (o_matrix cx) = omap a_cols (o_matrix cz)].
Proof.
rewrite /css_init; split=> [[o] | [cx [cz [-> -> -> ->]]]]; last by rewrite !eqxx /=; eexists.
case: (classical_init x field) => // cx; case: (classical_init z field) => // cz; case: ifP => // /negbT.
by rewrite negb_or !negbK => /andP [/eqP e1 /eqP e2] _; exists cx, cz.
Qed.

(* and then it has the field of its parts, the first part is the X code and the second one the Z code *)
Theorem C99_css_parts x z field o parts : css_init x z field = (Made o, parts) ->
  exists cx cz, [/\ classical_init x field = Made cx, classical_init z field = Made cz, parts = Some (cx, cz),
                    o_order o = o_order cx & o_order o = o_order cz].
Proof.
rewrite /css_init; case: (classical_init x field) => // cx; case: (classical_init z field) => // cz; case: ifP => // /negbT.
by rewrite negb_or !negbK => /andP [_ /eqP e2] [<- <-]; exists cx, cz.
Qed.

(* finding: for a galois array the requested field is ignored, even if it contradicts the array *)
Theorem C99_array_field_refuted : exists q m f o, [/\ prime_power f, f <> q, prime_power q, over_field q m &
  classical_init (FromArray q m) (Some f) = Made o /\ o_order o <> f].
Proof.
exists 2%N, (Arr 3 [:: [:: 1; 1; 0]; [:: 0; 1; 1]]), 3%N; eexists; split.
- by exists 3%N, 1%N.
- by [].
- by exists 2%N, 1%N.
- by apply/in_rangeP; vm_compute.
- by split; first reflexivity.
Qed.
(* finding: the cached dimension of a quantum code is taken for that of a classical code: ClassicalCode(FiveQubitCode()) *)
Definition five_obj : obj := Obj Qudit 2
  (Some (Arr 10 [:: [:: 1;0;0;1;0; 0;1;1;0;0]; [:: 0;1;0;0;1; 0;0;1;1;0]; [:: 1;0;1;0;0; 0;0;0;1;1]; [:: 0;1;0;1;0; 1;0;0;0;1]]))
  (Some 1%N) (Some 3%N) None.
Theorem C99_classical_dimension_refuted : exists c o, [/\ q_ok (as_qcode 2 c), classical_init (FromCode c) None = Made o &
  dimension (as_ccode 2 o) = 1%N /\ has_dim (cc_n (as_ccode 2 o)) (cc_mat (as_ccode 2 o)) 6].
Proof.
exists five_obj; eexists; split; [ | reflexivity | split=> //].
  have e : q_mat (as_qcode 2 five_obj) = q_mat five_qubit by apply/eqP; vm_compute.
  have es : q_sub (as_qcode 2 five_obj) = q_sub five_qubit by apply/eqP; vm_compute.
  have [h1 h2 h3 h4 h5] : q_ok five_qubit by case: PropsQuantum.ex_codes.
  split=> //; rewrite ?e ?es // => k [<-]; exists (q_gauge_dimension five_qubit).
  have := dimension_counts (proj1 PropsQuantum.ex_codes); congr counts; apply/eqP; by vm_compute.
have wM : code_ok (mkcode 10 (cc_mat (as_ccode 2 five_obj))) by split=> //; apply/eqP; vm_compute.
have [_ [_ h]] := C01_rank_dimension wM; move: h; congr has_dim; apply/eqP; by vm_compute.
Qed.
(* ... and the other way round: QuditCode(RepetitionCode(4)) is said to encode a qubit, but encodes none *)
Definition rep4_obj : obj := Obj Classical 2
  (Some (Arr 4 [:: [:: 1;1;0;0]; [:: 0;1;1;0]; [:: 0;0;1;1]])) (Some 1%N) (Some 4%N) None.
Theorem C99_qudit_dimension_refuted : exists c o, [/\ code_ok (as_ccode 2 c), qudit_init (FromCode c) None = Made o &
  q_dimension (as_qcode 2 o) = 1%N /\ counts (q_n (as_qcode 2 o)) (q_mat (as_qcode 2 o)) 0 1].
Proof.
exists rep4_obj; eexists; split; [ | reflexivity | split=> //].
  split=> // d [<-].
  have wM : code_ok (mkcode 4 (cc_mat (as_ccode 2 rep4_obj))) by split=> //; apply/eqP; vm_compute.
  have [_ [_ h]] := C01_rank_dimension wM; move: h; congr has_dim; apply/eqP; by vm_compute.
have ok : q_ok (mkq 2 (q_mat (as_qcode 2 rep4_obj)) None) by apply: q_ok_mk.
by have := dimension_counts ok; congr counts; apply/eqP; vm_compute.
Qed.
(* finding: the constructors take any code, but no CSSCode: it has no attribute _matrix *)
Theorem C99_from_css_refuted : exists x z c cx cz, css_init x z None = (Made c, Some (cx, cz)) /\
  (forall field, qudit_init (FromCode c) field = AttributeError /\ classical_init (FromCode c) field = AttributeError).
Proof.
exists (FromInts (Arr 2 [:: [:: 1; 1]])), (FromInts (Arr 2 [:: [:: 1; 1]])).
by do 3 eexists; split; first reflexivity.
Qed.

(* ---- non-vacuity *)
Example ex_C99_ints : [/\ prime_power 3, over_field 3 (Arr 2 [:: [:: 1; 2]]), ~ over_field 2 (Arr 2 [:: [:: 1; 2]]) & ~ prime_power 6].
Proof.
split; [by exists 3%N, 1%N | by apply/in_rangeP; vm_compute | |]; first by move/in_rangeP; apply/negP; vm_compute.
by move/is_orderP; apply/negP; vm_compute.
Qed.
Example ex_C99_code : o_matrix five_obj <> None /\ o_kind rep4_obj = Classical /\
  classical_init (FromCode rep4_obj) (Some 3%N) = ValueError /\ classical_init (FromCode rep4_obj) (Some 2%N) = Made rep4_obj.
Proof. by []. Qed.
Example ex_C99_css : (css_init (FromInts (Arr 2 [:: [:: 1; 1]])) (FromArray 3 (Arr 2 [:: [:: 1; 1]])) None).1 = ValueError /\
  (css_init (FromInts (Arr 2 [:: [:: 1; 1]])) (FromArray 3 (Arr 2 [:: [:: 1; 1]])) (Some 3%N)).2 <> None /\
  (css_init (FromInts (Arr 3 [:: [:: 1; 1; 0]])) (FromInts (Arr 2 [:: [:: 1; 1]])) None).1 = ValueError.
Proof. by []. Qed.

Print Assumptions C99_ints.
Print Assumptions C99_code.
Print Assumptions C99_copy.
Print Assumptions C99_not_cached.
Print Assumptions C99_css.
Print Assumptions C99_css_parts.
Print Assumptions C99_array_field_refuted.
Print Assumptions C99_classical_dimension_refuted.
Print Assumptions C99_qudit_dimension_refuted.
Print Assumptions C99_from_css_refuted.
