(* Codes whose checks are tiles of a square grid: logical operators and distances. *)
From mathcomp Require Import all_ssreflect all_algebra zify ring.
From Verif Require Import LinAlg RowReduce Classical ClassicalProofs ClassicalProofs2 ClassicalDist.
From Verif Require Import Symplectic Quantum QuantumProofs QuantumLogs Css CssLogs CssProofs CssGauge QuantumDist CssDist CssCert.
Set Implicit Arguments.
Unset Strict Implicit.
Unset Printing Implicit Defensive.
Import GRing.Theory.
Local Open Scope ring_scope.

Section Grid.
Variable F : fieldType.
Notation vec := (seq F).
Notation mat := (seq (seq F)).
Implicit Types f g h : nat -> nat -> F.

(* qudit q < n sits in row pa q and column pb q; rows are numbered 1..r, columns 1..c *)
Variables (n r c : nat) (ix : nat -> nat -> nat) (pa pb : nat -> nat).
Definition inr (a b : nat) := ((0 < a <= r) && (0 < b <= c))%N.
Hypothesis pos_in : forall q, (q < n)%N -> inr (pa q) (pb q) /\ ix (pa q) (pb q) = q.
Hypothesis ix_in : forall a b, inr a b -> [/\ (ix a b < n)%N, pa (ix a b) = a & pb (ix a b) = b].

Definition V f : 'rV[F]_n := \row_q f (pa q) (pb q).
Definition pad f : nat -> nat -> F := fun a b => if inr a b then f a b else 0.
Definition tile (a b x y : nat) : F := (((x == a) || (x == a.+1)) && ((y == b) || (y == b.+1)))%:R.

Lemma sum_at g a b : \sum_(q < n) (if (pa q == a) && (pb q == b) then g (pa q) (pb q) else 0) = pad g a b.
Proof.
rewrite /pad; case: ifP => [h|h].
  have [lq ea eb] := ix_in h; rewrite (bigD1 (Ordinal lq)) //= ea eb !eqxx /= big1 ?addr0 // => q nq.
  case: ifP => // /andP [/eqP e1 /eqP e2]; case/eqP: nq; apply: val_inj => /=.
  by have [_ <-] := pos_in (ltn_ord q); rewrite e1 e2.
rewrite big1 // => q _; case: ifP => // /andP [/eqP e1 /eqP e2].
by have [] := pos_in (ltn_ord q); rewrite e1 e2 h.
Qed.

Lemma tileE (z : F) a b x y : z * tile a b x y =
  (if (x == a) && (y == b) then z else 0) + (if (x == a.+1) && (y == b) then z else 0) +
  ((if (x == a) && (y == b.+1) then z else 0) + (if (x == a.+1) && (y == b.+1) then z else 0)).
Proof.
have na : (a == a.+1) = false by lia. have nb : (b == b.+1) = false by lia.
rewrite /tile; case: (eqVneq x a) => [->|_]; rewrite ?na; case: (eqVneq y b) => [->|_]; rewrite ?nb;
  case: (x == a.+1); case: (y == b.+1); rewrite /= ?mulr1 ?mulr0 ?addr0 ?add0r //.
Qed.

Lemma dot_tile g a b : \sum_(q < n) g (pa q) (pb q) * tile a b (pa q) (pb q) =
  pad g a b + pad g a.+1 b + (pad g a b.+1 + pad g a.+1 b.+1).
Proof.
under eq_bigr do rewrite tileE.
by rewrite !big_split /= !sum_at.
Qed.

Lemma V_ext f g : (forall a b, inr a b -> f a b = g a b) -> V f = V g.
Proof. by move=> h; apply/rowP => q; rewrite !mxE h //; have [] := pos_in (ltn_ord q). Qed.

(* signs of the entries of the checks: sg = s * t, where s is used for the tiles of type P and t for those of type W *)
Definition sg (a b : nat) : F := (-1) ^+ (a + b).
Variables (s t : nat -> nat -> F).
Hypothesis ss : forall a b, s a b * s a b = 1.
Hypothesis st : forall a b, t a b = sg a b * s a b.

Lemma sgS a b : sg a.+1 b = - sg a b. Proof. by rewrite /sg addSn exprS mulN1r. Qed.
Lemma sgSr a b : sg a b.+1 = - sg a b. Proof. by rewrite /sg addnS exprS mulN1r. Qed.
Lemma sg_neq0 a b : sg a b != 0. Proof. by rewrite /sg expf_neq0 // oppr_eq0 oner_neq0. Qed.
Lemma s_neq0 a b : s a b != 0.
Proof. by apply: contra_eq_neq (ss a b) => ->; rewrite mul0r eq_sym oner_neq0. Qed.
Lemma t_neq0 a b : t a b != 0.
Proof. by rewrite st mulf_neq0 ?sg_neq0 ?s_neq0. Qed.

Variables (p : bool) (P W : mat).
Hypotheses (wP : wf n P) (wW : wf n W).
Definition ptile a b := [&& (0 < a < r)%N, (b <= c)%N & odd (a + b) == p].
Definition wtile a b := [&& (a <= r)%N, (0 < b < c)%N & odd (a + b) != p].
Hypothesis P1 : forall x, x \in P -> exists a b, ptile a b /\ rv n x = V (fun i j => s i j * tile a b i j).
Hypothesis P2 : forall a b, ptile a b -> exists2 x, x \in P & rv n x = V (fun i j => s i j * tile a b i j).
Hypothesis W1 : forall x, x \in W -> exists a b, wtile a b /\ rv n x = V (fun i j => t i j * tile a b i j).
Hypothesis W2 : forall a b, wtile a b -> exists2 x, x \in W & rv n x = V (fun i j => t i j * tile a b i j).

(* commutation with the tiles of type W, as equations *)
Definition E h := forall a b, wtile a b -> pad h a b + pad h a.+1 b.+1 = pad h a.+1 b + pad h a b.+1.

Lemma pad_sg h a b : pad (fun i j => sg i j * h i j) a b = sg a b * pad h a b.
Proof. by rewrite /pad; case: ifP; rewrite ?mulr0. Qed.

Lemma dotV f g : (V f *m (V g)^T) 0 0 = \sum_(q < n) f (pa q) (pb q) * g (pa q) (pb q).
Proof. by rewrite mxE; apply: eq_bigr => q _; rewrite !mxE. Qed.

Lemma EP h : V (fun i j => s i j * h i j) *m (sp n W)^T = 0 <-> E h.
Proof.
have key a b : \sum_(q < n) V (fun i j => s i j * h i j) 0 q * V (fun i j => t i j * tile a b i j) 0 q =
   sg a b * (pad h a b + pad h a.+1 b.+1 - (pad h a.+1 b + pad h a b.+1)).
  transitivity (\sum_(q < n) (sg (pa q) (pb q) * h (pa q) (pb q)) * tile a b (pa q) (pb q)).
    apply: eq_bigr => q _; rewrite !mxE st.
    transitivity ((s (pa q) (pb q) * s (pa q) (pb q)) * (sg (pa q) (pb q) * h (pa q) (pb q)) * tile a b (pa q) (pb q)); first by ring.
    by rewrite ss mul1r.
  rewrite (dot_tile (fun i j => sg i j * h i j)) !pad_sg !sgS !sgSr; ring.
split=> [e a b ab | e].
  have [x xW ex] := W2 ab; have := row_comm e xW.
  have -> : \sum_(q < n) V (fun i j => s i j * h i j) 0 q * nth 0 x q =
            \sum_(q < n) V (fun i j => s i j * h i j) 0 q * V (fun i j => t i j * tile a b i j) 0 q.
    by rewrite -ex; apply: eq_bigr => q _; rewrite [rv n x 0 q]mxE.
  by rewrite key => /eqP; rewrite mulf_eq0 (negbTE (sg_neq0 _ _)) /= subr_eq0 => /eqP.
apply: comm_row => x xW; have [a [b [ab ex]]] := W1 xW; have := key a b; rewrite (e a b ab) subrr mulr0 -ex => k0; rewrite -[RHS]k0.
by apply: eq_bigr => q _; rewrite [rv n x 0 q]mxE.
Qed.

Lemma pad_id h a b : pad (pad h) a b = pad h a b.
Proof. by rewrite {1}/pad; case: ifP => //; rewrite /pad => ->. Qed.
Lemma pad_out h a b : ~~ inr a b -> pad h a b = 0.
Proof. by rewrite /pad => /negbTE ->. Qed.
Lemma V_pad h : V (fun i j => s i j * pad h i j) = V (fun i j => s i j * h i j).
Proof. by apply: V_ext => a b ab; rewrite /pad ab. Qed.

Definition two (a x : nat) : bool := (x == a) || (x == a.+1).

Lemma flat h a : E h -> (0 < a <= r)%N -> (forall x y, (x < a)%N -> pad h x y = 0) ->
  forall b, (0 < b < c)%N -> odd (a + b) == p -> pad h a b = pad h a b.+1.
Proof.
move=> e la z b lb hp; have := e a.-1 b; rewrite prednK; last by lia.
rewrite (z a.-1 b) ?(z a.-1 b.+1); try by lia.
rewrite add0r addr0 => <- //; rewrite /wtile lb /=; apply/andP; split; first by lia.
by move: hp; case/andP: la => la _; rewrite -{1}(prednK la) addSn /=; case: odd; case: (p).
Qed.

Lemma clear_in h a : E h -> (0 < a < r)%N -> (forall x y, (x < a)%N -> pad h x y = 0) ->
  (V (fun i j => s i j * ((two a i)%:R * pad h a j))%R <= sp n P)%MS.
Proof.
move=> e la z; have fl : forall b, (0 < b < c)%N -> odd (a + b) == p -> pad h a b = pad h a b.+1.
  by apply: flat => //; lia.
have -> : V (fun i j => s i j * ((two a i)%:R * pad h a j)) =
  \sum_(b < c.+1 | odd (a + b) == p) pad h a (maxn b 1) *: V (fun i j => s i j * tile a b i j).
  apply/rowP => q; rewrite summxE mxE; have [hin _] := pos_in (ltn_ord q).
  set i := pa q; set j := pb q; have [li lj] : (0 < i <= r)%N /\ (0 < j <= c)%N by apply/andP.
  transitivity (\sum_(b < c.+1 | odd (a + b) == p) pad h a (maxn b 1) * (s i j * tile a b i j)); last first.
    by apply: eq_bigr => b _; rewrite !mxE.
  have [b0 [lb0 pb0 hb0]] : exists b0, [/\ (b0 <= c)%N, odd (a + b0) == p & (b0 == j) || (b0.+1 == j)].
    case: (boolP (odd (a + j) == p)) => hp; first by exists j; rewrite eqxx; split=> //; lia.
    exists j.-1; rewrite prednK; last by lia.
    rewrite eqxx orbT; split=> //; first by lia.
    by move: hp; case/andP: lj => lj _; rewrite -{1}(prednK lj) addnS /=; case: odd; case: (p).
  rewrite (bigD1 (Ordinal (lb0 : b0 < c.+1)%N)) //= big1 => [|b /andP [hp nb]].
    rewrite addr0 /tile -/(two a i); have -> : (j == b0) || (j == b0.+1) by lia.
    rewrite andbT; suff -> : pad h a (maxn b0 1) = pad h a j by ring.
    case/orP: hb0 => /eqP hb0; first by rewrite hb0; congr pad; lia.
    case: (posnP b0) => z0; first by congr pad; lia.
    rewrite -hb0 -fl //; [congr pad | ]; lia.
  have nb' : (val b == b0) = false by apply/eqP => e'; case/eqP: nb; apply: val_inj.
  rewrite /tile; have -> : (j == b) || (j == b.+1) = false; last by rewrite andbF !mulr0.
  apply/negP => hb; move: (hp) pb0; case/orP: hb => /eqP hb; case/orP: hb0 => /eqP hb0.
  - by move/eqP: nb' => /=; lia.
  - by rewrite -hb -hb0 addnS /=; case: odd; case: (p).
  - by rewrite hb0 hb addnS /=; case: odd; case: (p).
  - by move/eqP: nb' => /=; lia.
apply: summx_sub => b hp; have [|x xP <-] := P2 (a := a) (b := b).
  by rewrite /ptile la -ltnS ltn_ord.
by apply: scalemx_sub; apply: mem_sp.
Qed.

Lemma clear i h : E h -> (i < r)%N -> exists h', [/\ E h', forall x y, (x <= i)%N -> pad h' x y = 0
  & (V (fun a b => s a b * h a b)%R - V (fun a b => s a b * h' a b)%R <= sp n P)%MS].
Proof.
elim: i => [|i IH] e lt.
  exists h; split=> //; last by rewrite subrr sub0mx.
  by move=> x y; rewrite leqn0 => /eqP ->; rewrite pad_out // /inr ltnn.
have [h1 [e1 z1 d1]] := IH e (ltnW lt).
pose h2 x y := pad h1 x y - (two i.+1 x)%:R * pad h1 i.+1 y.
have ph x y : pad h2 x y = pad h1 x y - (two i.+1 x)%:R * pad h1 i.+1 y.
  rewrite {1}/pad /h2; case: ifP => // hn; rewrite (pad_out h1 (negbT hn)) sub0r.
  rewrite /two; case: (eqVneq x i.+1) => [hx|_] /=.
    by rewrite -hx (pad_out h1 (negbT hn)) mulr0 oppr0.
  case: (eqVneq x i.+2) => [hx|_] /=; last by rewrite mul0r oppr0.
  rewrite pad_out ?mulr0 ?oppr0 //; apply/negP => h3; move/negP: hn; apply; move: h3; rewrite hx /inr; lia.
exists h2; split.
- move=> a b ab; rewrite !ph; have := e1 a b ab.
  have : ((two i.+1 a)%:R - (two i.+1 a.+1)%:R) * (pad h1 i.+1 b - pad h1 i.+1 b.+1) = 0.
    case: (boolP (odd (i.+1 + b) == p)) => hp.
      have lb : (0 < b < c)%N by move: ab; rewrite /wtile; lia.
      have -> : pad h1 i.+1 b = pad h1 i.+1 b.+1 by apply: (flat e1 _ _ lb hp) => //; lia.
      by rewrite subrr mulr0.
    suff -> : two i.+1 a = two i.+1 a.+1 by rewrite subrr mul0r.
    move: ab hp; rewrite /wtile /two !eqSS => /and3P [_ _]; rewrite addSn /=.
    case: (eqVneq a i.+1) => [_|n1] /=; first by rewrite orbT.
    case: (eqVneq a i.+2) => [->|n2]; first by rewrite !addSn /=; case: odd; case: (p).
    case: (eqVneq a i) => [->|n3]; last by [].
    by case: odd; case: (p).
  move=> h0 h1e; apply/eqP; rewrite -subr_eq0; apply/eqP.
  transitivity ((pad h1 a b + pad h1 a.+1 b.+1 - (pad h1 a.+1 b + pad h1 a b.+1)) -
     ((two i.+1 a)%:R - (two i.+1 a.+1)%:R) * (pad h1 i.+1 b - pad h1 i.+1 b.+1)); first by ring.
  by rewrite h0 h1e subrr subr0.
- move=> x y lx; rewrite ph; case: (eqVneq x i.+1) => [-> | nx]; first by rewrite /two eqxx mul1r subrr.
  have lx' : (x <= i)%N by lia.
  rewrite z1 // sub0r /two (negbTE nx) /=; have -> : (x == i.+2) = false by lia.
  by rewrite mul0r oppr0.
have -> : V (fun a b => s a b * h2 a b) = V (fun a b => s a b * h1 a b) - V (fun x y => s x y * ((two i.+1 x)%:R * pad h1 i.+1 y)).
  by rewrite -V_pad; apply/rowP => q; rewrite !mxE /h2 /pad; have [-> _] := pos_in (ltn_ord q); rewrite mulrBr.
rewrite opprB addrC -addrA; apply: addmx_sub; last by rewrite addrC.
by apply: clear_in.
Qed.

(* the operators on the last row, and on a column *)
Definition lrow : 'rV[F]_n := V (fun a b => s a b * (a == r)%:R).
Definition mcol (j : nat) : 'rV[F]_n := V (fun a b => t a b * (b == j)%:R).

Lemma V_surj (v : 'rV[F]_n) : exists h, v = V (fun a b => s a b * h a b).
Proof.
exists (fun a b => s a b * (if insub (ix a b) is Some q then v 0 q else 0)); apply/rowP => q; rewrite !mxE.
by rewrite mulrA ss mul1r; have [_ ->] := pos_in (ltn_ord q); rewrite valK.
Qed.

Hypotheses (r0 : (0 < r)%N) (c0 : (0 < c)%N).

Lemma ker_W (v : 'rV[F]_n) : v *m (sp n W)^T = 0 -> exists z : F, (v - z *: lrow <= sp n P)%MS.
Proof.
have [h ->] := V_surj v => /EP e; have lr : (r.-1 < r)%N by rewrite prednK.
have [h' [e' z' d']] := clear e lr.
have zr x y : x <> r -> pad h' x y = 0.
  move=> nx; case: (leqP x r.-1) => lx; first exact: z'.
  by rewrite pad_out // /inr; lia.
have step b : (0 < b < c)%N -> pad h' r b = pad h' r b.+1.
  move=> lb; case: (boolP (odd (r + b) == p)) => hp.
    by apply: (flat e' _ _ lb hp) => [|x y lx]; [lia | apply: zr; lia].
  have := e' r b; rewrite (zr r.+1 b) ?(zr r.+1 b.+1); try by lia.
  by rewrite addr0 add0r => -> //; rewrite /wtile leqnn lb hp.
have cst b : (0 < b <= c)%N -> pad h' r b = pad h' r 1.
  by elim: b => // -[_ _ | b IH lb]; [|rewrite -step ?IH //; lia].
exists (pad h' r 1); suff <- : V (fun a b => s a b * h' a b) = pad h' r 1 *: lrow by [].
apply/rowP => q; rewrite !mxE; have [hin _] := pos_in (ltn_ord q).
have -> : h' (pa q) (pb q) = pad h' (pa q) (pb q) by rewrite /pad hin.
case: (eqVneq (pa q) r) => [->|/eqP nx] /=; last by rewrite zr // !mulr0.
by rewrite cst; [ring | move/andP: hin => []].
Qed.

Lemma PW : sp n P *m (sp n W)^T = 0.
Proof.
apply/row_matrixP => i; rewrite row_mul row0 row_of_mx; have [a [b [ab ->]]] := P1 (mem_nth [::] (ltn_ord i)).
apply/EP => a' b' ab'; have pt x y : pad (tile a b) x y = (two a x)%:R * (((0 < y <= c)%N && ((y == b) || (y == b.+1)))%:R).
  rewrite /pad /tile /inr -/(two a x) -mulnb natrM -natrM mulnb; case: ifP => h.
    by rewrite -natrM mulnb; move/andP: h => [_ ->].
  rewrite -natrM mulnb; case: (boolP (two a x && _)) => //; rewrite /two; move: h ab; rewrite /ptile; lia.
rewrite !pt; apply/eqP; rewrite -subr_eq0; apply/eqP.
set B := fun y => (((0 < y <= c)%N && ((y == b) || (y == b.+1)))%:R : F).
transitivity (((two a a')%:R - (two a a'.+1)%:R) * (B b' - B b'.+1)); first by rewrite /B; ring.
case: (boolP (two a a' == two a a'.+1)) => [/eqP ->|h1]; first by rewrite subrr mul0r.
suff -> : B b' = B b'.+1 by rewrite subrr mulr0.
rewrite /B; congr (_%:R); congr nat_of_bool.
have {h1} h1 : a' = a.+1 \/ a = a'.+1 by move: h1; rewrite /two; lia.
move: ab ab'; rewrite /ptile /wtile => /and3P [_ _ hp] /and3P [_ lb hp'].
have ho : odd b' = odd b.
  by case: h1 hp hp' => ->; rewrite !addSn /= !oddD; case: odd; case: odd; case: odd; case: (p).
suff : (b' == b) || (b' == b.+1) = (b'.+1 == b) || (b'.+1 == b.+1) by move=> e1; apply/idP/idP; lia.
case: (eqVneq b' b) => [->|n1]; first by rewrite eqxx orbT.
have -> : (b' == b.+1) = false by apply/negP => /eqP e1; move: ho; rewrite e1 /=; case: odd.
have -> : (b'.+1 == b) = false by apply/negP => /eqP e1; move: ho; rewrite -e1 /=; case: odd.
by rewrite eqSS (negbTE n1).
Qed.

Lemma lrow_W : lrow *m (sp n W)^T = 0.
Proof.
apply/EP => a b ab; rewrite /pad /inr; move: ab; rewrite /wtile => /and3P [_ lb _].
have -> : (0 < b <= c)%N by lia. have -> : (0 < b.+1 <= c)%N by lia.
by rewrite addrC.
Qed.

Lemma mcol_P j (x : vec) : x \in P -> (rv n x *m (mcol j)^T) 0 0 = 0.
Proof.
case/P1 => a [b [ab ->]]; rewrite dotV.
transitivity (\sum_(q < n) (sg (pa q) (pb q) * (pb q == j)%:R) * tile a b (pa q) (pb q)).
  apply: eq_bigr => q _; rewrite st.
  transitivity ((s (pa q) (pb q) * s (pa q) (pb q)) * (sg (pa q) (pb q) * (pb q == j)%:R) * tile a b (pa q) (pb q)); first by ring.
  by rewrite ss mul1r.
rewrite (dot_tile (fun x y => sg x y * (y == j)%:R)) /pad /inr.
move: ab; rewrite /ptile => /and3P [la _ _]; have -> : (0 < a <= r)%N by lia. have -> : (0 < a.+1 <= r)%N by lia.
by rewrite !sgS; case: ifP => _; case: ifP => _; rewrite /= ?mulNr ?subrr ?addr0.
Qed.

Lemma mcol_sp j (v : 'rV[F]_n) : (v <= sp n P)%MS -> (v *m (mcol j)^T) 0 0 = 0.
Proof.
case/submxP => D ->; rewrite -mulmxA; suff -> : sp n P *m (mcol j)^T = 0 by rewrite mulmx0 mxE.
apply/row_matrixP => i; rewrite row_mul row0 row_of_mx; apply: rv_eq0; apply: mcol_P; exact: mem_nth.
Qed.

Lemma lrow_mcol j : (0 < j <= c)%N -> (lrow *m (mcol j)^T) 0 0 = sg r j.
Proof.
move=> lj; rewrite dotV; transitivity (pad sg r j); last by rewrite /pad /inr lj r0 leqnn.
rewrite -sum_at; apply: eq_bigr => q _; rewrite st.
case: (eqVneq (pa q) r) => [_|] /=; last by rewrite mulr0 mul0r.
case: (eqVneq (pb q) j) => [_|] /=; last by rewrite !mulr0.
by rewrite !mulr1 mulrCA ss mulr1.
Qed.

Lemma grid_counts : counts n (css_mat n P W) 1 0.
Proof.
apply: (cert_counts (l := lrow) (m := mcol 1) wP wW PW lrow_W).
- apply: trmx_inj; rewrite trmx_mul trmxK trmx0; apply/row_matrixP => i; rewrite row_mul row0 row_of_mx.
  by apply: rv_eq0; apply: mcol_P; apply: mem_nth.
- by rewrite unitmxE det_mx11 lrow_mcol ?c0 // unitfE sg_neq0.
move=> v /ker_W [z hz] h0; suff z0 : z = 0 by move: hz; rewrite z0 scale0r subr0.
have := mcol_sp 1 hz; rewrite mulmxBl h0 sub0r -scalemxAl -scaleNr.
have -> : (- z *: (lrow *m (mcol 1)^T)) 0 0 = - z * (lrow *m (mcol 1)^T) 0 0 by rewrite mxE.
by rewrite mulNr lrow_mcol ?c0 // => /eqP; rewrite oppr_eq0 mulf_eq0 (negbTE (sg_neq0 _ _)) orbF => /eqP.
Qed.

(* the smallest number of qudits on which a nontrivial operator of type P acts is the number of columns *)
Lemma grid_lower (v : vec) : tnon n P W v -> (c <= hwt v)%N.
Proof.
move=> nt; have sv : size v = n by case: nt.
have [vW vP] := proj1 (tnon_comm PW sv) nt; have [z hz] := ker_W vW.
have z0 : z != 0 by apply: contraNneq vP => z0; move: hz; rewrite z0 scale0r subr0.
apply: (hits (f := fun q => (pb q).-1) sv) => j lj.
have : (rv n v *m (mcol j.+1)^T) 0 0 != 0.
  have -> : rv n v = (rv n v - z *: lrow) + z *: lrow by rewrite subrK.
  by rewrite mulmxDl mxE (mcol_sp _ hz) add0r -scalemxAl mxE lrow_mcol ?mulf_neq0 ?sg_neq0 //; lia.
rewrite mxE => /eqP h; have /existsP [q /andP [/eqP hq nz]] : [exists q : 'I_n, (pb q == j.+1) && (nth 0 v q != 0)].
  apply: contraT => /existsPn h2; case: h; rewrite big1 // => q _; rewrite !mxE.
  have := h2 q; rewrite negb_and; case: (pb q == j.+1); last by rewrite !mulr0.
  by rewrite /= negbK => /eqP ->; rewrite mul0r.
by exists q; rewrite ltn_ord hq.
Qed.

Lemma grid_upper : tnon n P W (lrv lrow) /\ hwt (lrv lrow) = c.
Proof.
have sl := size_lrv lrow; have nt : tnon n P W (lrv lrow).
  apply/(tnon_comm PW sl); rewrite rv_lrv; split; first exact: lrow_W.
  by apply/negP => /(mcol_sp 1); rewrite lrow_mcol ?c0 // => /eqP; rewrite (negbTE (sg_neq0 _ _)).
split=> //; apply/eqP; rewrite eqn_leq grid_lower // andbT.
have e : hwt (lrv lrow) = size [seq pb q | q <- iota 0 n & nth 0 (lrv lrow) q != 0].
  by rewrite size_map size_filter /hwt -[in LHS](mkseq_nth 0 (lrv lrow)) /mkseq count_map sl.
have hr q : (q < n)%N -> nth 0 (lrv lrow) q != 0 -> pa q = r.
  move=> lq; have -> : nth 0 (lrv lrow) q = lrow 0 (Ordinal lq) by rewrite -{2}(rv_lrv lrow) [in RHS]mxE.
  by rewrite mxE /=; case: (eqVneq (pa q) r) => //; rewrite mulr0 eqxx.
rewrite e -[c](size_iota 1); apply: uniq_leq_size.
  rewrite map_inj_in_uniq ?filter_uniq ?iota_uniq // => x y; rewrite !mem_filter !mem_iota !add0n /=.
  move=> /andP [nx lx] /andP [ny ly] exy; have [_ <-] := pos_in lx; have [_ <-] := pos_in ly.
  by rewrite (hr x) // (hr y) // exy.
move=> b /mapP [q]; rewrite mem_filter mem_iota add0n /= => /andP [nq lq] ->.
by have [/andP [_ ]] := pos_in lq; rewrite mem_iota; lia.
Qed.
End Grid.
