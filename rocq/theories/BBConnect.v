(* The connections between check and data qubits of bivariate bicycle codes, in the layouts of quantum.py:418-464. *)
From mathcomp Require Import all_ssreflect all_algebra zify ring.
From Verif Require Import LinAlg RowReduce Kron Classical Symplectic Quantum QuantumProofs.
From Verif Require Import Css CssProofs Product PermGroup Abelian GroupRing RingArray BBLayout QCPoly QuasiCyclic ToricLayout.
Set Implicit Arguments.
Unset Strict Implicit.
Unset Printing Implicit Defensive.
Import GRing.Theory Num.Theory.
Local Open Scope ring_scope.

(* ====================================================================== specification *)
(* the coefficient with which a check qubit addresses a data qubit: rows of matrix_x come first (codes/common.py:1654-1662) *)
Definition connection (F : fieldType) (c : csscode F) (i j : nat) : F :=
  if (i < size (c_x c))%N then ent (c_x c) i j else ent (c_z c) (i - size (c_x c)) j.
(* a term with a nonzero coefficient in the field *)
Definition occurs (F : fieldType) (fld : int -> F) (p : seq term) (es : seq int) : Prop :=
  exists2 t, t \in p & t.2 = es /\ fld t.1 != 0.
(* the four neighbours of a position on the torus of 2 ra x 2 rb qubits *)
Definition neighbours (ra rb : nat) (p : nat * nat) : seq (nat * nat) :=
  [:: ((p.1 + 1) %% (2 * ra), p.2)%N; ((p.1 + (2 * ra - 1)) %% (2 * ra), p.2)%N;
      (p.1, (p.2 + 1) %% (2 * rb))%N; (p.1, (p.2 + (2 * rb - 1)) %% (2 * rb))%N].
Definition dist_l1 (p q : nat * nat) : nat := ((p.1 - q.1) + (q.1 - p.1) + ((p.2 - q.2) + (q.2 - p.2)))%N.

(* ============================================================================= proofs *)
Section Connect.
Variables (F : fieldType) (fld : int -> F) (ra rb : nat).
Hypotheses (f0 : fld 0 = 0) (ra0 : (0 < ra)%N) (rb0 : (0 < rb)%N).
Notation D := (ra * rb)%N.
Variables (pa pb : seq term) (c : csscode F).
Hypothesis ec : qc_code fld [:: ra; rb] pa pb = Some c.

Lemma label_pos_of i d s a b : node_label ra rb (i, d) = Some (s, a, b) ->
  [/\ (i < D + D)%N, (i < D)%N = (s == SL) || (s == SX), (i %% D = a * rb + b)%N, (a < ra)%N & (b < rb)%N] /\
  d = (s == SL) || (s == SR).
Proof.
rewrite /node_label; case u: (unravel ra rb (i, d).1) => [[[k a'] b']|] //= [es ea eb]; rewrite ea eb in u.
have [/= hk ha hb ei] := unravel_some u.
have lt : (a * rb + b < D)%N.
  by apply: (@leq_trans (a.+1 * rb)%N); [rewrite mulSn addnC ltn_add2r | rewrite leq_mul2r ha orbT].
have md : (i %% D = a * rb + b)%N by rewrite ei modnMDl modn_small.
have hi : (i < D + D)%N /\ (i < D)%N = (k == 0%N).
  case: k hk {u} ei {es} => [|[|k]] // _; rewrite ?mul0n ?add0n ?mul1n => ->; first by split=> //; apply: leq_trans lt (leq_addr _ _).
  by rewrite ltn_add2l lt ltnNge leq_addr.
case: hi => h1 h2; split; [split=> //; rewrite h2; move: es | move: es]; case: (d); case: k {hk u ei h2} => [|k] <- //.
Qed.

Lemma pos_label a b : (a < ra)%N -> (b < rb)%N -> pos rb (a * rb + b) = (a%:Z, b%:Z).
Proof. by move=> ha hb; rewrite /pos divnMDl // (divn_small hb) addn0 modnMDl (modn_small hb). Qed.

Theorem connections i j s a b s' a' b' : node_label ra rb (i, false) = Some (s, a, b) -> node_label ra rb (j, true) = Some (s', a', b') ->
  connection c i j =
    match s, s' with
    | SX, SL => pcoef fld ra rb pa (a'%:Z - a%:Z, b'%:Z - b%:Z)
    | SX, SR => pcoef fld ra rb pb (a'%:Z - a%:Z, b'%:Z - b%:Z)
    | SZ, SL => pcoef fld ra rb pb (a%:Z - a'%:Z, b%:Z - b'%:Z)
    | SZ, SR => - pcoef fld ra rb pa (a%:Z - a'%:Z, b%:Z - b'%:Z)
    | _, _ => 0
    end.
Proof.
move=> /label_pos_of [[hi si ei ha hb] ds] /label_pos_of [[hj sj ej ha' hb'] ds'].
have [c' [ec' _ xc zc h]] := bb_code f0 pa pb ra0 rb0.
have ecc : c' = c by [rewrite ec in ec'; case: ec']; subst c'.
have hm := half_mod hi; rewrite /connection xc.
have hi' : (i %% D < D)%N by rewrite ltn_mod muln_gt0 ra0.
have [hx hz] := h _ _ hi' hj; move: hx hz; rewrite /x_ent /z_ent ei ej !pos_label // sj /quot /=.
move=> hx hz; rewrite si.
by case: s ds si => //= _ si; rewrite si /= in hm; rewrite -hm ei ?hx ?hz; case: s' ds' {sj hx hz}.
Qed.

Lemma pcoef_occurs p es v : distinct_terms ra rb p -> occurs fld p es -> same ra rb (evec es) v -> pcoef fld ra rb p v != 0.
Proof.
move=> dp [t tp [<- nz]] hs; rewrite /pcoef big_mkcond (bigD1_seq t) //=; last by apply: map_uniq dp.
have -> : sameb ra rb (evec t.2) v by apply/samebP.
rewrite big1_seq ?addr0 // => u /andP [ne up]; case: ifP => // /samebP hu; case/eqP: ne.
by apply: (uniq_map_inj dp up tp); apply: idx_same; apply: same_trans (same_sym hs).
Qed.

Lemma dist_fold o x y : (0 < o)%N -> (x < 2 * o)%N -> (y = (x + 1) %% (2 * o))%N \/ (y = (x + (2 * o - 1)) %% (2 * o))%N ->
  ((fold_coord o x - fold_coord o y) + (fold_coord o y - fold_coord o x) <= 2)%N.
Proof.
move=> o0 hx; have ey : (y = x + 1 \/ y + 1 = x \/ (x = 0 /\ y = 2 * o - 1) \/ (x = 2 * o - 1 /\ y = 0))%N ->
    ((fold_coord o x - fold_coord o y) + (fold_coord o y - fold_coord o x) <= 2)%N.
  rewrite /fold_coord; case: (ltnP x o); case: (ltnP y o); move: o0 hx; clear; lia.
case=> e; apply: ey; rewrite {}e.
  case: (ltnP (x + 1) (2 * o)%N) => h; first by left; rewrite modn_small.
  right; right; right; have -> : (x + 1 = 2 * o)%N by move: h hx; clear; lia.
  by rewrite modnn; move: h hx; clear; lia.
case: x hx => [|x] hx; first by right; right; left; rewrite add0n modn_small // ; move: o0; clear; lia.
right; left; have -> : (x.+1 + (2 * o - 1) = x + 2 * o)%N by move: o0; clear; lia.
by rewrite modnDr modn_small ?addn1 // ltnW.
Qed.

(* a data qubit with a given label *)
Lemma data_node s a b : (a < ra)%N -> (b < rb)%N -> (s == SL) || (s == SR) ->
  exists2 j, (j < 2 * D)%N & node_label ra rb (j, true) = Some (s, a, b).
Proof.
move=> ha hb hs; have [] := @node_label_surj ra rb (s, a, b); first by rewrite /label_ok /= ha hb.
move=> [j d] [/= hj e]; exists j; first by rewrite mulnA.
by have [_ ed] := label_pos_of e; rewrite ed hs in e.
Qed.

Lemma dbl_mod r a (k : nat) : (0 < r)%N -> (a < r)%N -> (k < 2)%N ->
  ((2 * a + k + 1) %% (2 * r) = if k == 0 then 2 * a + 1 else 2 * ((a + 1) %% r))%N /\
  ((2 * a + k + (2 * r - 1)) %% (2 * r) = if k == 0 then 2 * ((a + (r - 1)) %% r) + 1 else 2 * a)%N.
Proof.
move=> r0 ha; case: k => [|[|k]] // _; rewrite ?addn0 /=; split.
- by rewrite modn_small //; move: ha; clear; lia.
- have -> : (2 * a + (2 * r - 1) = 2 * (a + (r - 1)) + 1)%N by move: r0; clear; lia.
  rewrite {1}(divn_eq (a + (r - 1)) r) mulnDr mulnCA -addnA modnMDl modn_small //.
  by have := ltn_pmod (a + (r - 1)) r0; clear; lia.
- have -> : (2 * a + 1 + 1 = 2 * (a + 1))%N by clear; lia.
  by rewrite -muln_modr.
have -> : (2 * a + 1 + (2 * r - 1) = 2 * a + 2 * r)%N by move: r0; clear; lia.
by rewrite modnDr modn_small // ltn_pmul2l.
Qed.

Hypotheses (da : distinct_terms ra rb pa) (db : distinct_terms ra rb pb).
Hypotheses (a0 : occurs fld pa [:: 0; 0]) (a1 : occurs fld pa [:: 1; 0]).
Hypotheses (b0 : occurs fld pb [:: 0; 0]) (b1 : occurs fld pb [:: 0; 1]).

Lemma mod_add1 r (a : nat) : (((a + 1) %% r)%N%:Z - a%:Z = 1 %[mod r])%Z.
Proof. by rewrite -modz_nat -modzDml modz_mod modzDml PoszD addrAC subrr add0r. Qed.
Lemma mod_sub1 r (a : nat) : (0 < r)%N -> (a%:Z - ((a + (r - 1)) %% r)%N%:Z = 1 %[mod r])%Z.
Proof.
move=> r0; rewrite -modz_nat -modzDmr -modzNm modz_mod modzNm modzDmr PoszD -subzn //.
have -> : (a%:Z - (a%:Z + (r%:Z - 1))) = 1 - r%:Z by ring.
by rewrite -modzDmr -modzNm modzz oppr0 mod0z addr0.
Qed.

Theorem nearest i p q : (i < 2 * D)%N -> qubit_pos false ra rb (i, false) = Some p -> q \in neighbours ra rb p ->
  exists j, [/\ (j < 2 * D)%N, qubit_pos false ra rb (j, true) = Some q, connection c i j != 0 &
    forall p' q', qubit_pos true ra rb (i, false) = Some p' -> qubit_pos true ra rb (j, true) = Some q' -> (dist_l1 p' q' <= 2)%N].
Proof.
move=> hi; rewrite /qubit_pos; case ei: (node_label ra rb (i, false)) => [[[s a] b]|] //= [<-] hq.
have [[_ _ _ ha hb] hs] := label_pos_of ei.
suff [s' [a' [b' [hs' [ha' hb'] eq nz ad]]]] : exists s' a' b', [/\ (s' == SL) || (s' == SR), (a' < ra)%N /\ (b' < rb)%N,
    label_pos false ra rb (s', a', b') = q, (forall j, node_label ra rb (j, true) = Some (s', a', b') -> connection c i j != 0) &
    let p := label_pos false ra rb (s, a, b) in
    (q.1 = p.1 /\ ((q.2 = (p.2 + 1) %% (2 * rb))%N \/ (q.2 = (p.2 + (2 * rb - 1)) %% (2 * rb))%N)) \/
    (q.2 = p.2 /\ ((q.1 = (p.1 + 1) %% (2 * ra))%N \/ (q.1 = (p.1 + (2 * ra - 1)) %% (2 * ra))%N))].
  have [j hj lj] := data_node ha' hb' hs'; exists j; rewrite lj /=; split=> //; [by rewrite -eq | exact: nz |].
  move=> _ _ [<-] [<-]; rewrite /dist_l1 /=.
  have hx (k : bool) : (2 * a + k < 2 * ra)%N by move: ha; case: k; clear; lia.
  have hy (k : bool) : (2 * b + k < 2 * rb)%N by move: hb; case: k; clear; lia.
  have q1 : q.1 = (2 * a' + ((s' == SR) || (s' == SX)))%N by rewrite -eq.
  have q2 : q.2 = (2 * b' + ((s' == SL) || (s' == SX)))%N by rewrite -eq.
  rewrite -q1 -q2; case: ad => /= -[-> ]; rewrite ?subnn ?addn0 ?add0n; exact: dist_fold.
have nb (r x : nat) : (0 < r)%N -> (x %% r < r)%N by move=> r0; rewrite ltn_mod.
have [x1 x2] := dbl_mod ra0 ha (isT : 1 < 2)%N; have [y1 y2] := dbl_mod rb0 hb (isT : 1 < 2)%N.
have [x3 x4] := dbl_mod ra0 ha (isT : 0 < 2)%N; have [y3 y4] := dbl_mod rb0 hb (isT : 0 < 2)%N.
rewrite !addn0 /= in x1 x2 x3 x4 y1 y2 y3 y4.
case: s ei hs hq => // ei _; rewrite /neighbours /= ?addn0 ?x1 ?x2 ?x3 ?x4 ?y1 ?y2 ?y3 ?y4 !inE => /or4P [] /eqP ->.
- exists SL, ((a + 1) %% ra)%N, b; rewrite /= addn0; split=> //; [by rewrite nb | | by right; split=> //; left].
  move=> j lj; rewrite (connections ei lj); apply: (pcoef_occurs da a1); split=> /=; last by rewrite subrr.
  by rewrite mod_add1.
- exists SL, a, b; rewrite /= addn0; split=> //; last by right; split=> //; right.
  by move=> j lj; rewrite (connections ei lj); apply: (pcoef_occurs da a0); split=> /=; rewrite subrr.
- exists SR, a, ((b + 1) %% rb)%N; rewrite /= addn0; split=> //; [by rewrite nb | | by left; split=> //; left].
  move=> j lj; rewrite (connections ei lj); apply: (pcoef_occurs db b1); split=> /=; first by rewrite subrr.
  by rewrite mod_add1.
- exists SR, a, b; rewrite /= addn0; split=> //; last by left; split=> //; right.
  by move=> j lj; rewrite (connections ei lj); apply: (pcoef_occurs db b0); split=> /=; rewrite subrr.
- exists SR, a, b; rewrite /= addn0; split=> //; last by right; split=> //; left.
  by move=> j lj; rewrite (connections ei lj) oppr_eq0; apply: (pcoef_occurs da a0); split=> /=; rewrite subrr.
- exists SR, ((a + (ra - 1)) %% ra)%N, b; rewrite /= addn0; split=> //; [by rewrite nb | | by right; split=> //; right].
  move=> j lj; rewrite (connections ei lj) oppr_eq0; apply: (pcoef_occurs da a1); split=> /=; last by rewrite subrr.
  by rewrite mod_sub1.
- exists SL, a, b; rewrite /= addn0; split=> //; last by left; split=> //; left.
  by move=> j lj; rewrite (connections ei lj); apply: (pcoef_occurs db b0); split=> /=; rewrite subrr.
exists SL, a, ((b + (rb - 1)) %% rb)%N; rewrite /= addn0; split=> //; [by rewrite nb | | by left; split=> //; right].
move=> j lj; rewrite (connections ei lj); apply: (pcoef_occurs db b1); split=> /=; first by rewrite subrr.
by rewrite mod_sub1.
Qed.
End Connect.
