(* Codes whose checks are tiles of a periodic square grid with even sides: logical operators and distances. *)
From mathcomp Require Import all_ssreflect all_algebra zify ring.
From Verif Require Import LinAlg RowReduce Classical ClassicalProofs ClassicalProofs2 ClassicalDist.
From Verif Require Import Symplectic Quantum QuantumProofs QuantumLogs Css CssLogs CssProofs CssGauge QuantumDist CssDist CssCert.
Set Implicit Arguments.
Unset Strict Implicit.
Unset Printing Implicit Defensive.
Import GRing.Theory.
Local Open Scope ring_scope.

(* explicit dual operators and enough independent checks *)
Lemma rank_cert (F : fieldType) n k (P W : seq (seq F)) (l m : 'M[F]_(k, n)) : sp n P *m (sp n W)^T = 0 ->
  l *m (sp n W)^T = 0 -> m *m (sp n P)^T = 0 -> l *m m^T \in unitmx -> (n <= \rank (sp n P) + \rank (sp n W) + k)%N ->
  forall v : 'rV[F]_n, v *m (sp n W)^T = 0 -> v *m m^T = 0 -> (v <= sp n P)%MS.
Proof.
move=> e lW mP lm le v vW vm.
have Pm : sp n P *m m^T = 0 by apply: trmx_inj; rewrite trmx_mul trmxK mP trmx0.
have free (u : 'rV[F]_k) : (u *m l <= sp n P)%MS -> u = 0.
  case/submxP => D eD; have : u *m l *m m^T = 0 by rewrite eD -mulmxA Pm mulmx0.
  by rewrite -mulmxA => h0; rewrite -[u](mulmxK lm) h0 mul0mx.
have c0 : \rank (sp n P :&: l)%MS = 0%N.
  apply/eqP; rewrite mxrank_eq0; apply/eqP/row_matrixP => i; rewrite row0.
  have := row_sub i (sp n P :&: l)%MS; rewrite sub_capmx => /andP[h1 /submxP [a ea]].
  by rewrite ea in h1 *; rewrite (free _ h1) mul0mx.
have fr : \rank l = k.
  apply/eqP; rewrite -/(row_free l) -kermx_eq0; apply/eqP/row_matrixP => i; rewrite row0; apply: free.
  by rewrite -row_mul mulmx_ker row0 sub0mx.
have sub : (sp n P + l <= kermx (sp n W)^T)%MS by rewrite addsmx_sub; apply/andP; split; apply/sub_kermxP.
have eqk : (kermx (sp n W)^T <= sp n P + l)%MS.
  rewrite -(mxrank_leqif_sup sub) eqn_leq mxrankS //=.
  have := mxrank_sum_cap (sp n P) l; rewrite c0 addn0 fr mxrank_ker mxrank_tr => ->.
  move: le; clear; lia.
have /sub_addsmxP [[D1 D2] /= ev] : (v <= sp n P + l)%MS by apply: submx_trans eqk; apply/sub_kermxP.
move: vm; rewrite ev mulmxDl -!mulmxA Pm mulmx0 add0r => h0.
have -> : D2 = 0 by rewrite -[D2](mulmxK lm) h0 mul0mx.
by rewrite mul0mx addr0 submxMl.
Qed.

(* the next row or column of a periodic grid *)
Definition suc (m x : nat) : nat := (x.+1 %% m)%N.

Section Suc.
Variable m : nat.
Hypothesis m1 : (1 < m)%N.
Lemma sucE x : (x < m)%N -> suc m x = if x.+1 == m then 0%N else x.+1.
Proof. by move=> lx; rewrite /suc; case: eqP => [->|h]; [rewrite modnn | rewrite modn_small //; lia]. Qed.
Lemma suc_lt x : (suc m x < m)%N. Proof. by rewrite /suc ltn_mod; lia. Qed.
Lemma suc_inj x y : (x < m)%N -> (y < m)%N -> suc m x = suc m y -> x = y.
Proof. by move=> lx ly; rewrite !sucE //; do 2 case: eqP; lia. Qed.
Lemma suc_ne x : (x < m)%N -> suc m x != x.
Proof. move=> lx; rewrite sucE //; apply/eqP; move: m1 lx; clear; case: (x.+1 =P m); lia. Qed.
Lemma suc_onto x : (x < m)%N -> exists2 y, (y < m)%N & suc m y = x.
Proof.
case: x => [_ | x lx]; first by exists m.-1; [lia | rewrite sucE; [case: eqP; lia | lia]].
by exists x; [lia | rewrite sucE; [case: eqP; lia | lia]].
Qed.
Hypothesis ev : ~~ odd m.
Lemma suc_odd x : (x < m)%N -> odd (suc m x) = ~~ odd x.
Proof. by move=> lx; rewrite sucE //; case: eqP => // e; move: ev; rewrite -e /= negbK => ->. Qed.
End Suc.

Section Torus.
Variable F : fieldType.
Notation vec := (seq F).
Notation mat := (seq (seq F)).
Implicit Types f g h : nat -> nat -> F.

(* qudit q < n sits in row pa q and column pb q; rows are numbered 0..r-1, columns 0..c-1 *)
Variables (n r c : nat) (ix : nat -> nat -> nat) (pa pb : nat -> nat).
Hypotheses (r1 : (1 < r)%N) (c1 : (1 < c)%N) (er : ~~ odd r) (ec : ~~ odd c).
Hypothesis pos_in : forall q, (q < n)%N -> [/\ (pa q < r)%N, (pb q < c)%N & ix (pa q) (pb q) = q].
Hypothesis ix_in : forall a b, (a < r)%N -> (b < c)%N -> [/\ (ix a b < n)%N, pa (ix a b) = a & pb (ix a b) = b].

Definition U f : 'rV[F]_n := \row_q f (pa q) (pb q).
Definition ttile (a b x y : nat) : F := (((x == a) || (x == suc r a)) && ((y == b) || (y == suc c b)))%:R.

Lemma tsum_at g a b : (a < r)%N -> (b < c)%N ->
  \sum_(q < n) (if (pa q == a) && (pb q == b) then g (pa q) (pb q) else 0) = g a b.
Proof.
move=> la lb; have [lq ea eb] := ix_in la lb; rewrite (bigD1 (Ordinal lq)) //= ea eb !eqxx /= big1 ?addr0 // => q nq.
case: ifP => // /andP [/eqP e1 /eqP e2]; case/eqP: nq; apply: val_inj => /=.
by have [_ _ <-] := pos_in (ltn_ord q); rewrite e1 e2.
Qed.

Lemma ttileE (z : F) a b x y : (a < r)%N -> (b < c)%N -> z * ttile a b x y =
  (if (x == a) && (y == b) then z else 0) + (if (x == suc r a) && (y == b) then z else 0) +
  ((if (x == a) && (y == suc c b) then z else 0) + (if (x == suc r a) && (y == suc c b) then z else 0)).
Proof.
move=> la lb; have na : (a == suc r a) = false by apply/negP => /eqP h; have := suc_ne r1 la; rewrite -h eqxx.
have nb : (b == suc c b) = false by apply/negP => /eqP h; have := suc_ne c1 lb; rewrite -h eqxx.
rewrite /ttile; case: (eqVneq x a) => [->|_]; rewrite ?na; case: (eqVneq y b) => [->|_]; rewrite ?nb;
  case: (x == suc r a); case: (y == suc c b); rewrite /= ?mulr1 ?mulr0 ?addr0 ?add0r //.
Qed.

Lemma dot_ttile g a b : (a < r)%N -> (b < c)%N -> \sum_(q < n) g (pa q) (pb q) * ttile a b (pa q) (pb q) =
  g a b + g (suc r a) b + (g a (suc c b) + g (suc r a) (suc c b)).
Proof.
move=> la lb; have [lr lc] := (suc_lt r1 a, suc_lt c1 b).
under eq_bigr do rewrite ttileE //.
by rewrite !big_split /= !tsum_at.
Qed.

Definition tsg (a b : nat) : F := if odd (a + b) then -1 else 1.
Variables (s t : nat -> nat -> F).
Hypothesis ss : forall a b, s a b * s a b = 1.
Hypothesis st : forall a b, t a b = tsg a b * s a b.

Lemma tsgS a b : (a < r)%N -> tsg (suc r a) b = - tsg a b.
Proof. by move=> la; rewrite /tsg !oddD suc_odd //; case: odd; case: odd; rewrite /= ?opprK. Qed.
Lemma tsgSr a b : (b < c)%N -> tsg a (suc c b) = - tsg a b.
Proof. by move=> lb; rewrite /tsg !oddD suc_odd //; case: odd; case: odd; rewrite /= ?opprK. Qed.
Lemma tsg_neq0 a b : tsg a b != 0.
Proof. by rewrite /tsg; case: ifP; rewrite ?oppr_eq0 oner_neq0. Qed.
Lemma ts_neq0 a b : s a b != 0.
Proof. by apply: contra_eq_neq (ss a b) => ->; rewrite mul0r eq_sym oner_neq0. Qed.

Variables (p : bool) (P W : mat).
Hypotheses (wP : wf n P) (wW : wf n W).
Definition tp (b' : bool) a b := [&& (a < r)%N, (b < c)%N & odd (a + b) == b'].
Hypothesis P1 : forall x, x \in P -> exists a b, tp p a b /\ rv n x = U (fun i j => s i j * ttile a b i j).
Hypothesis P2 : forall a b, tp p a b -> exists2 x, x \in P & rv n x = U (fun i j => s i j * ttile a b i j).
Hypothesis W1 : forall x, x \in W -> exists a b, tp (~~ p) a b /\ rv n x = U (fun i j => t i j * ttile a b i j).
Hypothesis W2 : forall a b, tp (~~ p) a b -> exists2 x, x \in W & rv n x = U (fun i j => t i j * ttile a b i j).

Lemma dotU f g : (U f *m (U g)^T) 0 0 = \sum_(q < n) f (pa q) (pb q) * g (pa q) (pb q).
Proof. by rewrite mxE; apply: eq_bigr => q _; rewrite !mxE. Qed.

Lemma rowdot (v : 'rV[F]_n) (w : vec) : \sum_(q < n) v 0 q * nth 0 w q = (v *m (rv n w)^T) 0 0.
Proof. by rewrite mxE; apply: eq_bigr => q _; rewrite [_^T _ _]mxE [rv n w _ _]mxE. Qed.

(* products with tiles; f carries the signs s or t, the tile the other ones *)
Lemma dot_signed h a b : (a < r)%N -> (b < c)%N ->
  \sum_(q < n) tsg (pa q) (pb q) * h (pa q) (pb q) * ttile a b (pa q) (pb q) =
  tsg a b * (h a b - h (suc r a) b - (h a (suc c b) - h (suc r a) (suc c b))).
Proof.
move=> la lb; rewrite (dot_ttile (fun i j => tsg i j * h i j)) // !tsgS // !tsgSr // ?suc_lt //.
ring.
Qed.
Lemma dot_st h a b : (a < r)%N -> (b < c)%N -> (U (fun i j => s i j * h i j) *m (U (fun i j => t i j * ttile a b i j))^T) 0 0 =
  tsg a b * (h a b - h (suc r a) b - (h a (suc c b) - h (suc r a) (suc c b))).
Proof.
move=> la lb; rewrite dotU -dot_signed //; apply: eq_bigr => q _; rewrite st.
transitivity ((s (pa q) (pb q) * s (pa q) (pb q)) * (tsg (pa q) (pb q) * h (pa q) (pb q)) * ttile a b (pa q) (pb q)); first by ring.
by rewrite ss mul1r.
Qed.
Lemma dot_ts h a b : (a < r)%N -> (b < c)%N -> (U (fun i j => t i j * h i j) *m (U (fun i j => s i j * ttile a b i j))^T) 0 0 =
  tsg a b * (h a b - h (suc r a) b - (h a (suc c b) - h (suc r a) (suc c b))).
Proof.
move=> la lb; rewrite dotU -dot_signed //; apply: eq_bigr => q _; rewrite st.
transitivity ((s (pa q) (pb q) * s (pa q) (pb q)) * (tsg (pa q) (pb q) * h (pa q) (pb q)) * ttile a b (pa q) (pb q)); first by ring.
by rewrite ss mul1r.
Qed.

Lemma two_tiles m a x : (1 < m)%N -> ~~ odd m -> (a < m)%N -> (x < m)%N ->
  ((x == a) || (x == suc m a)) != ((suc m x == a) || (suc m x == suc m a)) -> odd x != odd a.
Proof.
move=> m1 em la lx; case: (eqVneq x a) => [->|n1] /=; first by rewrite eqxx orbT.
have -> : (suc m x == suc m a) = false by apply/negP => /eqP /(suc_inj m1 lx la) /eqP; rewrite (negbTE n1).
rewrite orbF; case: (eqVneq x (suc m a)) => [->|n2] /=; first by rewrite suc_odd //; case: odd.
by case: (eqVneq (suc m x) a) => // <- _; rewrite suc_odd //; case: odd.
Qed.

Lemma tPW : sp n P *m (sp n W)^T = 0.
Proof.
apply/row_matrixP => i; rewrite row_mul row0 row_of_mx; have [a [b [/and3P [la lb hp] ->]]] := P1 (mem_nth [::] (ltn_ord i)).
apply: comm_row => w wiW; have [a' [b' [/and3P [la' lb' hp'] ew]]] := W1 wiW.
transitivity ((U (fun i j => s i j * ttile a b i j) *m (U (fun i j => t i j * ttile a' b' i j))^T) 0 0).
  by rewrite -ew rowdot.
rewrite dot_st // /ttile; set A := fun x => (x == a) || (x == suc r a); set B := fun y => (y == b) || (y == suc c b).
rewrite -!/(A _) -!/(B _) -!mulnb !natrM.
transitivity (tsg a' b' * (((A a')%:R - (A (suc r a'))%:R) * ((B b')%:R - (B (suc c b'))%:R))); first by ring.
case: (boolP (A a' == A (suc r a'))) => [/eqP ->|hA]; first by rewrite subrr mul0r mulr0.
case: (boolP (B b' == B (suc c b'))) => [/eqP ->|hB]; first by rewrite subrr !mulr0.
have := two_tiles r1 er la la' hA; have := two_tiles c1 ec lb lb' hB.
by move: hp hp'; rewrite !oddD; case: odd; case: odd; case: odd; case: odd; case: (p).
Qed.

(* rows and columns *)
Definition prow i : 'rV[F]_n := U (fun a b => s a b * (a == i)%:R).
Definition pcol j : 'rV[F]_n := U (fun a b => s a b * (b == j)%:R).
Definition wrow i : 'rV[F]_n := U (fun a b => t a b * (a == i)%:R).
Definition wcol j : 'rV[F]_n := U (fun a b => t a b * (b == j)%:R).

Lemma st_W h : (forall a b, (a < r)%N -> (b < c)%N -> h a b - h (suc r a) b - (h a (suc c b) - h (suc r a) (suc c b)) = 0) ->
  U (fun a b => s a b * h a b) *m (sp n W)^T = 0.
Proof.
move=> hh; apply: comm_row => w wiW; have [a [b [/and3P [la lb _] ew]]] := W1 wiW.
transitivity ((U (fun i j => s i j * h i j) *m (U (fun i j => t i j * ttile a b i j))^T) 0 0).
  by rewrite -ew rowdot.
by rewrite dot_st // hh // mulr0.
Qed.
Lemma ts_P h : (forall a b, (a < r)%N -> (b < c)%N -> h a b - h (suc r a) b - (h a (suc c b) - h (suc r a) (suc c b)) = 0) ->
  U (fun a b => t a b * h a b) *m (sp n P)^T = 0.
Proof.
move=> hh; apply: comm_row => w wiW; have [a [b [/and3P [la lb _] ew]]] := P1 wiW.
transitivity ((U (fun i j => t i j * h i j) *m (U (fun i j => s i j * ttile a b i j))^T) 0 0).
  by rewrite -ew rowdot.
by rewrite dot_ts // hh // mulr0.
Qed.
Lemma prow_W i : prow i *m (sp n W)^T = 0. Proof. by apply: st_W => a b _ _; rewrite subrr. Qed.
Lemma pcol_W j : pcol j *m (sp n W)^T = 0. Proof. by apply: st_W => a b _ _; rewrite !subrr. Qed.
Lemma wrow_P i : wrow i *m (sp n P)^T = 0. Proof. by apply: ts_P => a b _ _; rewrite subrr. Qed.
Lemma wcol_P j : wcol j *m (sp n P)^T = 0. Proof. by apply: ts_P => a b _ _; rewrite !subrr. Qed.

Lemma dot_st2 f g : (U (fun a b => s a b * f a b) *m (U (fun a b => t a b * g a b))^T) 0 0 =
  \sum_(q < n) tsg (pa q) (pb q) * (f (pa q) (pb q) * g (pa q) (pb q)).
Proof.
rewrite dotU; apply: eq_bigr => q _; rewrite st.
transitivity ((s (pa q) (pb q) * s (pa q) (pb q)) * (tsg (pa q) (pb q) * (f (pa q) (pb q) * g (pa q) (pb q)))); first by ring.
by rewrite ss mul1r.
Qed.

Lemma prow_wcol i j : (i < r)%N -> (j < c)%N -> (prow i *m (wcol j)^T) 0 0 = tsg i j.
Proof.
move=> li lj; rewrite dot_st2 -[RHS](tsum_at _ li lj); apply: eq_bigr => q _.
by case: (pa q == i); case: (pb q == j); rewrite /= ?mulr1 ?mulr0 ?mul0r.
Qed.
Lemma pcol_wrow i j : (i < r)%N -> (j < c)%N -> (pcol j *m (wrow i)^T) 0 0 = tsg i j.
Proof.
move=> li lj; rewrite dot_st2 -[RHS](tsum_at _ li lj); apply: eq_bigr => q _.
by case: (pa q == i); case: (pb q == j); rewrite /= ?mulr1 ?mulr0 ?mul0r.
Qed.

(* an alternating sum along a closed line is zero *)
Lemma alt_sum m : ~~ odd m -> \sum_(y < m) (if odd y then -1 else 1) = 0 :> F.
Proof.
move=> em; rewrite -(odd_double_half m) (negbTE em) add0n; elim: (m./2) => [|k IH]; first by rewrite big_ord0.
by rewrite doubleS !big_ord_recr /= IH odd_double /= add0r subrr.
Qed.

(* sums over the grid *)
Lemma grid_sum g : \sum_(q < n) g (pa q) (pb q) = \sum_(a < r) \sum_(b < c) g a b.
Proof.
rewrite pair_bigA /=.
have -> : \sum_(ab : 'I_r * 'I_c) g ab.1 ab.2 =
  \sum_(ab : 'I_r * 'I_c) \sum_(q < n) (if (pa q == ab.1) && (pb q == ab.2) then g (pa q) (pb q) else 0).
  by apply: eq_bigr => ab _; rewrite tsum_at.
rewrite exchange_big; apply: eq_bigr => q _ /=; have [la lb _] := pos_in (ltn_ord q).
rewrite (bigD1 (Ordinal la, Ordinal lb)) //= !eqxx /= big1 ?addr0 // => -[a b] /= ne.
case: ifP => // /andP [/eqP e1 /eqP e2]; case/eqP: ne; congr (_, _); exact: val_inj.
Qed.

Lemma prow_wrow i i' : (prow i *m (wrow i')^T) 0 0 = 0.
Proof.
rewrite dot_st2 (grid_sum (fun a b => tsg a b * ((a == i)%:R * (a == i')%:R))).
apply: big1 => a _; rewrite -mulr_suml.
rewrite -[X in X * _ = _]/(\sum_(b < c) tsg a b).
have -> : \sum_(b < c) tsg a b = 0; last by rewrite mul0r.
transitivity (tsg a 0%N * \sum_(y < c) (if odd y then -1 else 1)); last by rewrite alt_sum // mulr0.
rewrite mulr_sumr; apply: eq_bigr => b _.
by rewrite /tsg addn0 oddD; case: odd; case: odd; rewrite /= ?mulr1 ?mul1r ?mulN1r ?opprK.
Qed.
Lemma pcol_wcol j j' : (pcol j *m (wcol j')^T) 0 0 = 0.
Proof.
rewrite dot_st2 (grid_sum (fun a b => tsg a b * ((b == j)%:R * (b == j')%:R))).
rewrite exchange_big; apply: big1 => b _; rewrite -mulr_suml.
have -> : \sum_(a < r) tsg a b = 0; last by rewrite mul0r.
transitivity (tsg 0%N b * \sum_(y < r) (if odd y then -1 else 1)); last by rewrite alt_sum // mulr0.
rewrite mulr_sumr; apply: eq_bigr => a _.
by rewrite /tsg add0n oddD; case: odd; case: odd; rewrite /= ?mulr1 ?mul1r ?mulN1r ?opprK.
Qed.

(* how many of the checks are independent *)
Definition tmat : 'M[F]_(n, n + n) := \matrix_(k < n)
  if odd (pa k + pb k) == p then row_mx (U (fun i j => s i j * ttile (pa k) (pb k) i j)) 0
  else row_mx 0 (U (fun i j => t i j * ttile (pa k) (pb k) i j)).
Definition corner2 : 'M[F]_(n, 1 + 1) :=
  row_mx (\col_k ((pa k == 0%N) && (pb k == 0%N))%:R) (\col_k ((pa k == 0%N) && (pb k == 1%N))%:R).

Lemma tmat_rank : (\rank tmat <= \rank (sp n P) + \rank (sp n W))%N.
Proof.
have -> : (\rank (sp n P) + \rank (sp n W) = \rank (block_mx (sp n P) 0 0 (sp n W)))%N by rewrite rank_diag_block_mx.
apply: mxrankS; apply/row_subP => k; rewrite rowK; have [la lb _] := pos_in (ltn_ord k); case: ifP => [hp|hp].
  have [|x xP <-] := @P2 (pa k) (pb k); first by rewrite /tp la lb hp.
  have /submxP [u ->] : (rv n x <= sp n P)%MS by apply: mem_sp.
  by apply/submxP; exists (row_mx u 0); rewrite mul_row_block !mul0mx !mulmx0 !addr0.
have [|x xP <-] := @W2 (pa k) (pb k); first by rewrite /tp la lb; move: hp; case: odd; case: (p).
have /submxP [u ->] : (rv n x <= sp n W)%MS by apply: mem_sp.
by apply/submxP; exists (row_mx 0 u); rewrite mul_row_block !mul0mx !mulmx0 !add0r.
Qed.

Lemma sucC m a x : (1 < m)%N -> (a < m)%N -> (x < m)%N ->
  (suc m x == a) || (suc m x == suc m a) = ((a == x) || (a == suc m x)).
Proof.
move=> m1 la lx; rewrite orbC (eq_sym (suc m x) a); congr (_ || _).
by apply/eqP/eqP => [/(suc_inj m1 lx la) ->|->].
Qed.

Lemma ttileC a b x y : (a < r)%N -> (b < c)%N -> (x < r)%N -> (y < c)%N -> ttile a b (suc r x) (suc c y) = ttile x y a b.
Proof. by move=> la lb lx ly; rewrite /ttile !sucC. Qed.

Definition kf (u : 'rV[F]_n) a b := \sum_(k < n) (if (pa k == a) && (pb k == b) then u 0 k else 0).
Lemma ker_eqs (u : 'rV[F]_n) : u *m tmat = 0 -> let f := kf u in
  (forall k : 'I_n, u 0 k = f (pa k) (pb k)) /\
  forall a b, (a < r)%N -> (b < c)%N -> f a b + f (suc r a) (suc c b) = 0 /\ f (suc r a) b + f a (suc c b) = 0.
Proof.
move=> h f.
have fE (k : 'I_n) : u 0 k = f (pa k) (pb k).
  rewrite /f /kf (bigD1 k) //= !eqxx /= big1 ?addr0 // => q nq; case: ifP => // /andP [/eqP e1 /eqP e2].
  case/eqP: nq; apply: val_inj => /=; have [_ _ <-] := pos_in (ltn_ord q); have [_ _ <-] := pos_in (ltn_ord k).
  by rewrite e1 e2.
split=> // a b la lb.
have key (b' : bool) : \sum_(k < n) (if odd (pa k + pb k) == b' then f (pa k) (pb k) else 0) * ttile a b (pa k) (pb k) = 0.
  have [lq ea eb] := ix_in (suc_lt r1 a) (suc_lt c1 b).
  pose q := Ordinal lq; pose z := if b' == p then s (suc r a) (suc c b) else t (suc r a) (suc c b).
  have z0 : z != 0 by rewrite /z; case: ifP => _; rewrite ?st ?mulf_neq0 ?tsg_neq0 ?ts_neq0.
  apply: (mulfI z0); rewrite mulr0.
  have : (u *m tmat) 0 (if b' == p then lshift n q else rshift n q) = 0 by rewrite h mxE.
  rewrite mxE => h0; apply: etrans h0; rewrite mulr_sumr; apply: eq_bigr => k _; rewrite !mxE fE.
  have [lka lkb _] := pos_in (ltn_ord k).
  rewrite /z; case: (boolP (b' == p)) => [/eqP -> | nb].
    case: ifP => _; last by rewrite (row_mxEl (0 : 'rV[F]_n)) mxE mul0r !mulr0.
    by rewrite row_mxEl mxE /= ea eb ttileC //; ring.
  case: (boolP (odd (pa k + pb k) == p)) => [/eqP -> | n2].
    by rewrite eq_sym (negbTE nb) (row_mxEr (_ : 'rV[F]_n)) mxE mul0r !mulr0.
  have -> : odd (pa k + pb k) == b' by move: nb n2; case: (b'); case: (p); case: odd.
  by rewrite row_mxEr mxE /= ea eb ttileC //; ring.
pose g b' x y := if odd (x + y) == b' then f x y else 0.
have k2 b' := dot_ttile (g b') la lb.
have := k2 (odd (a + b)); have := k2 (~~ odd (a + b)).
rewrite /g !key !oddD !suc_odd //; case: odd; case: odd => /=; rewrite !add0r !addr0 => <- <- //.
Qed.

Lemma tmat_full : (n <= \rank tmat + 2)%N.
Proof.
have fr : row_free (row_mx tmat corner2).
  rewrite -kermx_eq0; apply/eqP/row_matrixP => i; rewrite row0; set u := row i _.
  have : u *m row_mx tmat corner2 = 0 by rewrite -row_mul mulmx_ker row0.
  rewrite mul_mx_row => /eqP; rewrite row_mx_eq0 => /andP[/eqP h1 /eqP].
  rewrite /corner2 mul_mx_row => /eqP; rewrite row_mx_eq0 => /andP[/eqP h2 /eqP h3].
  have [fE eqs] := ker_eqs h1; set f := kf u in fE eqs.
  have f00 : f 0%N 0%N = 0.
    have := congr1 (fun M : 'rV_1 => M 0 0) h2; rewrite [X in X = _]mxE [X in _ = X]mxE => h0; apply: etrans h0; apply: eq_bigr => k _.
    by rewrite [X in _ = _ * X]mxE; case: ifP; rewrite ?mulr1 ?mulr0.
  have f01 : f 0%N 1%N = 0.
    have := congr1 (fun M : 'rV_1 => M 0 0) h3; rewrite [X in X = _]mxE [X in _ = X]mxE => h0; apply: etrans h0; apply: eq_bigr => k _.
    by rewrite [X in _ = _ * X]mxE; case: ifP; rewrite ?mulr1 ?mulr0.
  have row0 b : (b.+1 < c)%N -> f 0%N b = 0 /\ f 0%N b.+1 = 0.
    elim: b => [//|b IH] lb; have [|e1 e2] := IH; first by lia.
    split=> //; have lb' : (b < c)%N by lia.
    have [q1 _] := eqs 0%N b (ltnW r1) lb'; have lb1 : (b.+1 < c)%N by lia.
    have [_ q2] := eqs 0%N b.+1 (ltnW r1) lb1.
    move: q1 q2; rewrite e1 add0r !(@sucE c) // (ltn_eqF lb1) (ltn_eqF lb) => ->; by rewrite add0r.
  have all0 a b : (a < r)%N -> (b < c)%N -> f a b = 0.
    elim: a b => [|a IH] b la lb.
      case: b lb => [|b] lb; first by have [] := row0 0%N c1.
      by have [] := row0 b lb.
    have la' : (a < r)%N by lia.
    have [_] := eqs a b la' lb; rewrite (IH (suc c b)) ?suc_lt // addr0 sucE // (ltn_eqF la) //.
  by apply/rowP => k; rewrite fE mxE; have [la lb _] := pos_in (ltn_ord k); rewrite all0.
have /eqP rk := fr; rewrite /row_free in rk.
have : (\rank (row_mx tmat corner2) <= \rank tmat + \rank corner2)%N.
  by rewrite -mxrank_tr tr_row_mx -addsmxE (leq_trans (mxrank_adds_leqif _ _)) // !mxrank_tr.
by rewrite rk => /leq_trans; apply; rewrite leq_add2l; apply: rank_leq_col.
Qed.

Definition tl : 'M[F]_(1 + 1, n) := col_mx (prow 0%N) (pcol 0%N).
Definition tm : 'M[F]_(1 + 1, n) := col_mx (wcol 0%N) (wrow 0%N).

Lemma scal1 (M : 'M[F]_1) z : M 0 0 = z -> M = z%:M.
Proof. by move=> h; apply/matrixP => i j; rewrite !ord1 h !mxE. Qed.

Lemma tlm : tl *m tm^T = 1%:M.
Proof.
rewrite /tl /tm tr_col_mx mul_col_row.
have r0 : (0 < r)%N by apply: ltnW. have c0 : (0 < c)%N by apply: ltnW.
rewrite (scal1 (prow_wcol r0 c0)) (scal1 (pcol_wrow r0 c0)) (scal1 (prow_wrow _ _)) (scal1 (pcol_wcol _ _)).
by rewrite /tsg /= !raddf0 -scalar_mx_block.
Qed.

Lemma tlW : tl *m (sp n W)^T = 0. Proof. by rewrite /tl mul_col_mx prow_W pcol_W col_mx0. Qed.
Lemma tmP : tm *m (sp n P)^T = 0. Proof. by rewrite /tm mul_col_mx wcol_P wrow_P col_mx0. Qed.

Lemma t_ker (v : 'rV[F]_n) : v *m (sp n W)^T = 0 -> v *m tm^T = 0 -> (v <= sp n P)%MS.
Proof.
apply: (@rank_cert _ _ _ _ _ tl) => //; first exact: tPW; first exact: tlW; first exact: tmP.
- by rewrite tlm unitmx1.
by apply: leq_trans tmat_full _; rewrite leq_add2r; apply: tmat_rank.
Qed.

Lemma torus_counts : counts n (css_mat n P W) 2 0.
Proof.
apply: (@cert_counts _ _ _ _ _ tl tm) => //; first exact: tPW; first exact: tlW; first exact: tmP.
- by rewrite tlm unitmx1.
exact: t_ker.
Qed.

Lemma split_op (v : 'rV[F]_n) : v *m (sp n W)^T = 0 ->
  exists (z : 'rV[F]_(1 + 1)) x, [/\ (x <= sp n P)%MS, v = x + z *m tl & z = v *m tm^T].
Proof.
move=> vW; exists (v *m tm^T), (v - v *m tm^T *m tl); split=> //; last by rewrite subrK.
by apply: t_ker; rewrite mulmxBl ?vW -!mulmxA ?tlW ?tlm ?mulmx0 ?mulmx1 subrr.
Qed.

Lemma split2 (z : 'rV[F]_(1 + 1)) : z *m tl = z 0 (lshift 1 0) *: prow 0%N + z 0 (rshift 1 0) *: pcol 0%N.
Proof.
rewrite -[z in LHS]hsubmxK /tl mul_row_col; congr (_ + _).
  by rewrite [lsubmx z]mx11_scalar mul_scalar_mx mxE.
by rewrite [rsubmx z]mx11_scalar mul_scalar_mx mxE.
Qed.

Lemma dot_wcol (v : 'rV[F]_n) j : v *m (sp n W)^T = 0 -> (j < c)%N ->
  (v *m (wcol j)^T) 0 0 = (v *m tm^T) 0 (lshift 1 0) * tsg 0%N j.
Proof.
case/split_op => z [x [/submxP [D ->] e <-]] lj; rewrite e split2 !mulmxDl -mulmxA.
have -> : sp n P *m (wcol j)^T = 0 by apply: trmx_inj; rewrite trmx_mul trmxK wcol_P trmx0.
rewrite mulmx0 add0r -!scalemxAl (scal1 (prow_wcol (ltnW r1) lj)) (scal1 (pcol_wcol _ _)).
by rewrite !mxE /= mulr0 addr0.
Qed.
Lemma dot_wrow (v : 'rV[F]_n) i : v *m (sp n W)^T = 0 -> (i < r)%N ->
  (v *m (wrow i)^T) 0 0 = (v *m tm^T) 0 (rshift 1 0) * tsg i 0%N.
Proof.
case/split_op => z [x [/submxP [D ->] e <-]] lj; rewrite e split2 !mulmxDl -mulmxA.
have -> : sp n P *m (wrow i)^T = 0 by apply: trmx_inj; rewrite trmx_mul trmxK wrow_P trmx0.
rewrite mulmx0 add0r -!scalemxAl (scal1 (pcol_wrow lj (ltnW c1))) (scal1 (prow_wrow _ _)).
by rewrite !mxE /= mulr0 add0r.
Qed.

Lemma dotN0 (v : vec) f : (rv n v *m (U f)^T) 0 0 != 0 -> exists2 q : 'I_n, nth 0 v q != 0 & f (pa q) (pb q) != 0.
Proof.
move=> h; case: (pickP (fun q : 'I_n => (nth 0 v q != 0) && (f (pa q) (pb q) != 0))) => [q /andP [h1 h2] | h0]; first by exists q.
case/eqP: h; rewrite mxE big1 // => q _; rewrite !mxE; have /negbT := h0 q.
by rewrite negb_and !negbK => /orP [] /eqP ->; rewrite ?mul0r ?mulr0.
Qed.

Lemma torus_lower v : tnon n P W v -> (minn r c <= hwt v)%N.
Proof.
move=> h; have sv : size v = n by case: h.
have [vW nP] := (tnon_comm tPW sv).1 h.
case: (eqVneq ((rv n v *m tm^T) 0 (lshift 1 0)) 0) => [z0|z0]; last first.
  rewrite geq_min; apply/orP; right; apply: (@hits _ _ _ pb _ sv) => j lj.
  have [|q q1 q2] := @dotN0 v (fun a b => t a b * (b == j)%:R); first by rewrite -/(wcol j) dot_wcol // mulf_neq0 // tsg_neq0.
  exists q; split=> //; apply: contraNeq q2 => /negbTE ->; by rewrite mulr0.
case: (eqVneq ((rv n v *m tm^T) 0 (rshift 1 0)) 0) => [z1|z1]; last first.
  rewrite geq_min; apply/orP; left; apply: (@hits _ _ _ pa _ sv) => j lj.
  have [|q q1 q2] := @dotN0 v (fun a b => t a b * (a == j)%:R); first by rewrite -/(wrow j) dot_wrow // mulf_neq0 // tsg_neq0.
  exists q; split=> //; apply: contraNeq q2 => /negbTE ->; by rewrite mulr0.
case/negP: nP; apply: t_ker => //; rewrite -[LHS]hsubmxK; apply/eqP; rewrite row_mx_eq0.
by apply/andP; split; apply/eqP/rv_eq0; rewrite mxE.
Qed.

Lemma hwt_kind (f : nat -> nat -> F) (ka kb : nat -> nat) c' k0 :
  (forall q q', (q < n)%N -> (q' < n)%N -> ka q = ka q' -> kb q = kb q' -> q = q') -> (forall q, (q < n)%N -> (kb q < c')%N) ->
  (forall q, (q < n)%N -> f (pa q) (pb q) != 0 -> ka q = k0) -> (hwt (lrv (U f)) <= c')%N.
Proof.
move=> inj lt hr; have sl := size_lrv (U f).
have e : hwt (lrv (U f)) = size [seq kb q | q <- iota 0 n & nth 0 (lrv (U f)) q != 0].
  by rewrite size_map size_filter /hwt -[in LHS](mkseq_nth 0 (lrv (U f))) /mkseq count_map sl.
have nE q : (q < n)%N -> nth 0 (lrv (U f)) q = f (pa q) (pb q).
  move=> lq; have -> : nth 0 (lrv (U f)) q = (U f) 0 (Ordinal lq) by rewrite -{2}(rv_lrv (U f)) [in RHS]mxE.
  by rewrite mxE.
rewrite e -[c' in (_ <= c')%N](size_iota 0); apply: uniq_leq_size.
  rewrite map_inj_in_uniq ?filter_uniq ?iota_uniq // => x y; rewrite !mem_filter !mem_iota !add0n /=.
  move=> /andP [nx lx] /andP [ny ly] exy; rewrite nE // in nx; rewrite nE // in ny.
  by apply: inj => //; rewrite (hr x) // (hr y).
move=> b /mapP [q]; rewrite mem_filter mem_iota add0n /= => /andP [nq lq] ->.
by rewrite mem_iota add0n /= lt.
Qed.

Lemma pos_inj q q' : (q < n)%N -> (q' < n)%N -> pa q = pa q' -> pb q = pb q' -> q = q'.
Proof. by move=> lq lq' e1 e2; have [_ _ <-] := pos_in lq; have [_ _ <-] := pos_in lq'; rewrite e1 e2. Qed.

Lemma no_span (x y : 'rV[F]_n) : y *m (sp n P)^T = 0 -> (x *m y^T) 0 0 != 0 -> ~~ (x <= sp n P)%MS.
Proof.
move=> h; apply: contra_neqN => /submxP [D ->]; rewrite -mulmxA.
have -> : sp n P *m y^T = 0 by apply: trmx_inj; rewrite trmx_mul trmxK h trmx0.
by rewrite mulmx0 mxE.
Qed.

Lemma torus_upper : exists v, tnon n P W v /\ hwt v = minn r c.
Proof.
have r0 : (0 < r)%N by apply: ltnW. have c0 : (0 < c)%N by apply: ltnW.
suff [v h1 h2] : exists2 v, tnon n P W v & (hwt v <= minn r c)%N.
  by exists v; split=> //; apply/eqP; rewrite eqn_leq h2 torus_lower.
case: (leqP c r) => rc.
  exists (lrv (prow 0%N)).
    apply/(tnon_comm tPW (size_lrv _)); rewrite rv_lrv prow_W; split=> //.
    by apply: (no_span (wcol_P 0%N)); rewrite prow_wcol // tsg_neq0.
  apply: (@hwt_kind _ pa pb c 0%N) => [|q /pos_in [] //|q lq]; first exact: pos_inj.
  by case: (eqVneq (pa q) 0%N) => //; rewrite mulr0 eqxx.
exists (lrv (pcol 0%N)).
  apply/(tnon_comm tPW (size_lrv _)); rewrite rv_lrv pcol_W; split=> //.
  by apply: (no_span (wrow_P 0%N)); rewrite pcol_wrow // tsg_neq0.
apply: (@hwt_kind _ pb pa r 0%N) => [q q' lq lq' e1 e2|q /pos_in [] //|q lq]; first exact: pos_inj.
by case: (eqVneq (pb q) 0%N) => //; rewrite mulr0 eqxx.
Qed.
End Torus.
