(* Elementary families of classical codes: proofs. *)
From mathcomp Require Import all_ssreflect all_algebra zify ring.
From Verif Require Import LinAlg RowReduce Classical ClassicalProofs ClassicalProofs2 ClassicalDist Families.
Set Implicit Arguments.
Unset Strict Implicit.
Unset Printing Implicit Defensive.
Import GRing.Theory.
Local Open Scope ring_scope.

Section Proofs.
Variable F : fieldType.
Notation vec := (seq F).
Notation mat := (seq (seq F)).

(* ----------------------------------------------------- repetition codes and ring codes *)
Lemma two_terms n (w : nat -> F) i k : (i < n)%N -> (k < n)%N -> i != k ->
  \sum_(j < n) (if j == k :> nat then -1 else if j == i :> nat then 1 else 0) * w j = w i - w k.
Proof.
move=> li lk ne; rewrite (bigD1 (Ordinal li)) //= (negbTE ne) eqxx mul1r (bigD1 (Ordinal lk)) /=; last first.
  by rewrite -(inj_eq val_inj) /= eq_sym.
rewrite eqxx mulN1r big1 ?addr0 // => j /andP []; rewrite -!(inj_eq val_inj) /= => h1 h2.
by rewrite (negbTE h2) (negbTE h1) mul0r.
Qed.

(* codes whose words are the constant words *)
Lemma const_code n (H : mat) : (0 < n)%N -> wf n H -> (forall w, is_word n H w <-> exists a, w = nseq n a) ->
  [/\ code_ok (CCode n H None (Some 1%N)), has_dim n H 1 & is_dist n H n].
Proof.
move=> n0 wH h.
have hd : has_dim n H 1.
  exists [:: nseq n 1]; split=> //; split=> [g|w /h [a ->]|c c' w].
  - by rewrite inE => /eqP ->; apply/h; exists 1.
  - exists [:: a]; split=> //; first by rewrite size_nseq.
    by move=> j lj; rewrite big_ord1 /= !nth_nseq lj mulr1.
  case: c => [|a [|? ?]]; [by case | | by case]; case=> _ sw e; case: c' => [|b [|? ?]]; [by case | | by case]; case=> _ _ e'.
  by congr [:: _]; move: (e _ n0) (e' _ n0); rewrite !big_ord1 /= !nth_nseq n0 !mulr1 => <-.
split=> //.
  split=> //= k [<-]; exact: hd.
split.
  exists (nseq n 1); split; first by apply/h; exists 1.
    by exists 0%N; rewrite nth_nseq n0; apply/eqP; rewrite oner_neq0.
  by rewrite /hwt count_nseq oner_neq0 mul1n.
move=> w /h [a ->] [j]; rewrite nth_nseq; case: ifP => // _ /eqP na.
by rewrite /hwt count_nseq na mul1n.
Qed.

Lemma mem_mkmat m n (f : nat -> nat -> F) r : r \in mkmat m n f -> exists2 i, (i < m)%N & r = mkseq (f i) n.
Proof. by case/mapP => i; rewrite mem_iota add0n /= => li ->; exists i. Qed.
Lemma mkmat_mem m n (f : nat -> nat -> F) i : (i < m)%N -> mkseq (f i) n \in mkmat m n f.
Proof. by move=> li; apply/mapP; exists i => //; rewrite mem_iota. Qed.

Lemma word_mkmat m n (f : nat -> nat -> F) w : is_word n (mkmat m n f) w <->
  size w = n /\ forall i, (i < m)%N -> \sum_(j < n) f i j * nth 0 w j = 0.
Proof.
split=> -[sw h]; split=> //.
  by move=> i li; apply: etrans (h _ (mkmat_mem n f li)); apply: eq_bigr => j _; rewrite nth_mkseq.
by move=> r /mem_mkmat [i li ->]; apply: etrans (h i li); apply: eq_bigr => j _; rewrite nth_mkseq.
Qed.

Lemma const_word n (w : vec) : size w = n -> (forall i, (i.+1 < n)%N -> nth 0 w i = nth 0 w i.+1) -> exists a, w = nseq n a.
Proof.
move=> sw h; exists (nth 0 w 0); apply: (@eq_from_nth _ 0); rewrite ?size_nseq // sw => i li; rewrite nth_nseq li.
by elim: i li => // i IH li; rewrite -h // IH //; apply: ltnW.
Qed.

Lemma rep_words b (w : vec) : is_word b.+1 (mkmat b b.+1 (fun i j => if j == i.+1 then -1 else if j == i then 1 else 0 : F)) w <->
  exists a, w = nseq b.+1 a.
Proof.
apply: iff_trans (word_mkmat _ _ _ _) _; split=> [[sw h]|[a ->]].
  apply: const_word => // i li; apply/eqP; rewrite -subr_eq0; apply/eqP; rewrite -(@two_terms b.+1 (nth 0 w) i i.+1).
  - by apply: h; lia.
  - by lia.
  - by [].
  by lia.
split=> [|i li]; first by rewrite size_nseq.
rewrite (@two_terms _ (nth 0 (nseq b.+1 a))); [|lia|lia|lia].
by rewrite !nth_nseq ltnS (ltnW li) ltnS li subrr.
Qed.

Lemma ring_words n (w : vec) : (1 < n)%N ->
  is_word n (mkmat n n (fun i j => if j == (i.+1 %% n)%N then -1 else if j == i then 1 else 0 : F)) w <-> exists a, w = nseq n a.
Proof.
move=> n1; have ne i : (i < n)%N -> i != (i.+1 %% n)%N /\ (i.+1 %% n < n)%N.
  move=> li; rewrite ltn_mod (ltnW n1); split=> //; case: (ltnP i.+1 n) => h; first by rewrite modn_small //; lia.
  have e : i.+1 = n by lia.
  by rewrite e modnn; lia.
apply: iff_trans (word_mkmat _ _ _ _) _; split=> [[sw h]|[a ->]].
  apply: const_word => // i li; have li' : (i < n)%N by lia. have [n2 l2] := ne i li'.
  apply/eqP; rewrite -subr_eq0; apply/eqP; rewrite -[in X in _ - X](modn_small li).
  by rewrite -(@two_terms n (nth 0 w) i (i.+1 %% n)%N) //; apply: h.
split=> [|i li]; first by rewrite size_nseq.
have [n2 l2] := ne i li.
by rewrite (@two_terms _ (nth 0 (nseq n a))) // !nth_nseq li l2 subrr.
Qed.

Lemma repetition_ok bits : (0 < bits)%N -> exists c, [/\ repetition F bits = Some (c, Dist bits), cc_n c = bits, dimension c = 1%N,
  code_ok c & has_dim bits (cc_mat c) 1 /\ is_dist bits (cc_mat c) bits].
Proof.
case: bits => // b _; eexists; split=> //=.
  by have [] := const_code (ltn0Sn b) (wf_mkmat b b.+1 _) (@rep_words b).
by have [] := const_code (ltn0Sn b) (wf_mkmat b b.+1 _) (@rep_words b).
Qed.
Lemma ring_ok bits : (1 < bits)%N -> let c := (ring_code F bits).1 in
  [/\ (ring_code F bits).2 = Dist bits, cc_n c = bits, dimension c = 1%N,
  code_ok c & has_dim bits (cc_mat c) 1 /\ is_dist bits (cc_mat c) bits].
Proof.
move=> b1 c; have h w := ring_words w b1; have [] := const_code (ltnW b1) (wf_mkmat bits bits _) h.
by split.
Qed.

(* ------------------------------------------------------------------------ Hamming codes *)
(* the first nonzero entry is a one *)
Definition normal (v : vec) : Prop := exists t rest, v = nseq t 0 ++ 1 :: rest.

Lemma normal_nth v : normal v -> exists t, nth 0 v t = 1 /\ forall i, (i < t)%N -> nth 0 v i = 0.
Proof.
move=> [t [rest ->]]; exists t; split=> [|i li]; rewrite nth_cat size_nseq ?ltnn ?subnn // li nth_nseq li //.
Qed.

Lemma normal_prop (u v : vec) z : normal u -> normal v -> size u = size v ->
  (forall i, nth 0 u i = z * nth 0 v i) -> u = v.
Proof.
move=> /normal_nth [t [u1 u0]] /normal_nth [t' [v1 v0]] sz h.
have e : t = t'.
  case: (ltngtP t t') => // lt; first by move: (h t); rewrite u1 v0 // mulr0 => /eqP; rewrite oner_eq0.
  have : z = 0 by move: (h t'); rewrite u0 // v1 mulr1.
  by move=> z0; move: (h t); rewrite z0 mul0r u1 => /eqP; rewrite oner_eq0.
have z1 : z = 1 by move: (h t); rewrite u1 e v1 mulr1.
by apply: (@eq_from_nth _ 0) => // i _; rewrite h z1 mul1r.
Qed.

Section Cols.
Variables (r : nat) (cols : seq vec).
Hypothesis wc : wf r cols.
Let n := size cols.
Let H := trl r cols.

Lemma col_word w : is_word n H w <-> size w = n /\ forall i, (i < r)%N -> \sum_(j < n) nth 0 (nth [::] cols j) i * nth 0 w j = 0.
Proof.
split=> -[sw h]; split=> //.
  move=> i li; have hi : [seq nth 0 c i | c <- cols] \in H by apply/mapP; exists i; rewrite ?mem_iota.
  by apply: etrans (h _ hi); apply: eq_bigr => j _; rewrite (nth_map [::]).
move=> x /mapP [i]; rewrite mem_iota add0n /= => li ->; apply: etrans (h i li).
by apply: eq_bigr => j _; rewrite (nth_map [::]).
Qed.

Lemma col_wf : wf n H. Proof. exact: wf_trl. Qed.

Lemma col_dim : (forall i, (i < r)%N -> vunit F r i \in cols) -> has_dim n H (n - r) /\ (r <= n)%N.
Proof.
move=> h; have full : \rank (sp r cols) = r.
  apply/eqP; rewrite eqn_leq rank_leq_col /= -[r in (r <= _)%N](mxrank1 F); apply: mxrankS; apply/row_subP => i.
  apply: submx_trans (mem_sp r (h i (ltn_ord i))); rewrite (_ : row i 1%:M = rv r (vunit F r i)) //.
  by apply/rowP => j; rewrite !mxE nth_mkseq // eq_sym.
split; last by rewrite -[X in (X <= _)%N]full rank_leq_row.
apply/(has_dimE _ col_wf); congr (_ - _)%N; rewrite /sp /H size_trl mx_trl // mxrank_tr -[LHS]full //.
Qed.

Lemma support2 (w : vec) j : (hwt w <= 2)%N -> nth 0 w j != 0 -> exists k, forall i, nth 0 w i != 0 -> i = j \/ i = k.
Proof.
move=> h nj; pose ps := [seq i <- iota 0 (size w) | nth 0 w i != 0].
have sp : size ps = hwt w by rewrite /ps size_filter /hwt -[in RHS](mkseq_nth 0 w) /mkseq count_map.
have mp i : nth 0 w i != 0 -> i \in ps.
  by move=> ni; rewrite mem_filter ni mem_iota add0n /=; apply: contraNT ni; rewrite -leqNgt => /(nth_default 0) ->.
have jp := mp j nj; have := mp; move: jp; rewrite -sp in h; case: ps h {mp sp} => [|a [|b []]] //= _.
  by rewrite inE => /eqP -> mp; exists a => i /mp; rewrite inE => /eqP ->; left.
rewrite !inE => /orP [] /eqP -> mp; [exists b | exists a] => i /mp; rewrite !inE => /orP [] /eqP ->; auto.
Qed.

Lemma col_lower w : uniq cols -> (forall c, c \in cols -> normal c) -> is_word n H w -> (exists j, nth 0 w j <> 0) -> (3 <= hwt w)%N.
Proof.
move=> uq nm /col_word [sw hw] [j /eqP nj]; rewrite ltnNge; apply/negP => le.
have lj : (j < n)%N by rewrite -sw ltnNge; apply: contraNN nj => /(nth_default 0) ->.
have [k hk] := support2 le nj.
have mj : nth [::] cols j \in cols by apply: mem_nth.
have sj : size (nth [::] cols j) = r by apply: (wfP _ _ wc).
have single : (forall i, (i < n)%N -> i != j -> nth 0 w i = 0) -> False.
  move=> h; have [t [h1 _]] := normal_nth (nm _ mj).
  have lt : (t < r)%N by rewrite -sj ltnNge; apply/negP => /(nth_default 0); rewrite h1 => /eqP; rewrite oner_eq0.
  have := hw t lt; rewrite (bigD1 (Ordinal lj)) //= h1 mul1r big1 ?addr0 => [/eqP|i]; first by rewrite (negbTE nj).
  by rewrite -(inj_eq val_inj) /= => ni; rewrite h ?mulr0.
case: (eqVneq k j) => [ekj|nkj].
  by apply: single => i li ni; apply: contraNeq ni => /hk; rewrite ekj => -[] ->.
case: (ltnP k n) => lk; last first.
  by apply: single => i li ni; apply: contraNeq ni => /hk [-> //| e]; move: li; rewrite e ltnNge lk.
have mk : nth [::] cols k \in cols by apply: mem_nth.
have sk : size (nth [::] cols k) = r by apply: (wfP _ _ wc).
have e : nth [::] cols j = nth [::] cols k.
  apply: (@normal_prop _ _ (- nth 0 w k / nth 0 w j)); [exact: nm | exact: nm | by rewrite sj sk | move=> i].
  case: (ltnP i r) => li; last by rewrite (nth_default 0 (s := nth [::] cols j)) ?sj // (nth_default 0 (s := nth [::] cols k)) ?sk // mulr0.
  have := hw i li; rewrite (bigD1 (Ordinal lj)) //= (bigD1 (Ordinal lk)) /=; last by rewrite -(inj_eq val_inj).
  rewrite big1 ?addr0 => [h0|x]; last first.
    rewrite -!(inj_eq val_inj) /= => /andP [n1 n2]; have -> : nth 0 w x = 0; last by rewrite mulr0.
    by apply: contraTeq n1 => /hk [] ex; move: n2; rewrite ex ?eqxx.
  apply: (mulIf nj); rewrite mulrAC divfK // mulNr mulrC; apply/eqP; rewrite -addr_eq0; apply/eqP.
  by move: h0; rewrite mulrC [X in _ + X]mulrC.
by move/eqP: e; rewrite nth_uniq // eq_sym (negbTE nkj).
Qed.

(* three columns, one of which is the sum of the other two *)
Lemma col_three a b : a \in cols -> b \in cols -> vadd a b \in cols -> uniq [:: a; b; vadd a b] ->
  exists w, [/\ is_word n H w, exists j, nth 0 w j <> 0 & hwt w = 3%N].
Proof.
move=> ha hb hc uq.
have sa : size a = r by apply: (wfP _ _ wc). have sb : size b = r by apply: (wfP _ _ wc).
pose f i : F := if i == index a cols then 1 else if i == index b cols then 1 else if i == index (vadd a b) cols then -1 else 0.
have [la lb lc] : [/\ index a cols < n, index b cols < n & index (vadd a b) cols < n]%N by rewrite !index_mem.
have inj x y : x \in cols -> y \in cols -> index x cols = index y cols -> x = y.
  by move=> hx hy e; rewrite -(nth_index [::] hx) -(nth_index [::] hy) e.
have nab : index a cols != index b cols by apply: contraTneq uq => /(inj _ _ ha hb) ->; rewrite /= !inE eqxx.
have nac : index a cols != index (vadd a b) cols by apply: contraTneq uq => /(inj _ _ ha hc) <-; rewrite /= !inE eqxx orbT.
have nbc : index b cols != index (vadd a b) cols by apply: contraTneq uq => /(inj _ _ hb hc) <-; rewrite /= !inE eqxx andbF.
exists (mkseq f n); split.
- apply/col_word; split=> [|i li]; first by rewrite size_mkseq.
  rewrite (bigD1 (Ordinal la)) //= (bigD1 (Ordinal lb)) /=; last by rewrite -(inj_eq val_inj) eq_sym.
  rewrite (bigD1 (Ordinal lc)) /=; last by rewrite -!(inj_eq val_inj) /= ![index (vadd a b) cols == _]eq_sym nac nbc.
  rewrite big1 => [|j]; last first.
    rewrite -!(inj_eq val_inj) /= => /andP [/andP [n1 n2] n3]; rewrite nth_mkseq // /f (negbTE n1) (negbTE n2) (negbTE n3) mulr0 //.
  rewrite !nth_mkseq // /f eqxx eq_sym (negbTE nab) eqxx eq_sym (negbTE nac) eq_sym (negbTE nbc) eqxx.
  rewrite !nth_index // !mulr1 mulrN1 addr0 (nth_vadd i (etrans sa (esym sb))) addrA.
  by rewrite subrr.
- by exists (index a cols); rewrite nth_mkseq // /f eqxx; apply/eqP; rewrite oner_neq0.
rewrite /hwt /mkseq count_map -size_filter -[3%N]/(size [:: index a cols; index b cols; index (vadd a b) cols]).
apply: perm_size; apply: uniq_perm; rewrite ?filter_uniq ?iota_uniq //= ?inE ?negb_or ?nab ?nac ?nbc //.
move=> i; rewrite mem_filter mem_iota add0n /= !inE /f.
case: (eqVneq i (index a cols)) => [->|_] /=; first by rewrite oner_neq0.
case: (eqVneq i (index b cols)) => [->|_] /=; first by rewrite oner_neq0.
case: (eqVneq i (index (vadd a b) cols)) => [->|_] /=; first by rewrite oppr_eq0 oner_neq0.
by rewrite eqxx.
Qed.
End Cols.

Section Hamming.
Variable el : vec.
Hypotheses (uel : uniq el) (ael : forall x : F, x \in el).

Lemma first_nonzero (v : vec) : v != nseq (size v) 0 -> exists t x rest, v = nseq t 0 ++ x :: rest /\ x != 0.
Proof.
elim: v => [|x v IH] //=; case: (eqVneq x 0) => [->|nx _]; last by exists 0%N, x, v.
have -> : (0 :: v != 0 :: nseq (size v) 0) = (v != nseq (size v) 0) by rewrite eqseq_cons eqxx.
by move=> /IH [t [y [rest [-> ny]]]]; exists t.+1, y, rest.
Qed.

Lemma binary_cols r c : size el = 2%N -> c \in behead (product [:: 0; 1 : F] r) <-> size c = r /\ normal c.
Proof.
move=> s2; have bin := binary uel ael s2.
have uq : uniq (product [:: 0; 1 : F] r) by apply: uniq_product; rewrite /= inE andbT eq_sym oner_neq0.
have e := product_head [:: 1 : F] r; have mem (v : vec) : (v \in product [:: 0; 1 : F] r) = (size v == r).
  rewrite mem_product -[RHS]andbT; congr (_ && _); apply/allP => x _; rewrite !inE.
  by case: (bin x) => ->; rewrite eqxx ?orbT.
have : (c \in behead (product [:: 0; 1 : F] r)) = (size c == r) && (c != nseq r 0).
  rewrite -mem e inE [in RHS]/=; move: uq; rewrite e /= => /andP [nin _].
  by case: (eqVneq c (nseq r 0)) => [->|_] /=; rewrite ?(negbTE nin) ?andbT.
move=> ->; split=> [/andP [/eqP sc nc]|[sc [t [rest ec]]]].
  split=> //; rewrite -sc in nc; have [t [x [rest [-> nx]]]] := first_nonzero nc.
  by exists t, rest; case: (bin x) nx => ->; rewrite ?eqxx.
rewrite sc eqxx ec; apply/eqP => h; have := congr1 (fun v => nth 0 v t) h; rewrite nth_cat size_nseq ltnn subnn /= nth_nseq.
by case: ifP => _ /eqP; rewrite oner_eq0.
Qed.

Lemma qary_cols r c : c \in flatten [seq [seq nseq top 0 ++ 1 :: rest | rest <- product el (r - top - 1)] | top <- rev (iota 0 r)] <->
  size c = r /\ normal c.
Proof.
split=> [/flattenP [cs /mapP [t]]|[sc [t [rest ec]]]].
  rewrite mem_rev mem_iota add0n /= => lt -> /mapP [rest]; rewrite mem_product => /andP [/eqP sr _] ->.
  by split; [rewrite size_cat size_nseq /= sr; lia | exists t, rest].
have lt : (t < r)%N by rewrite -sc ec size_cat size_nseq /=; lia.
apply/flattenP; exists [seq nseq t 0 ++ 1 :: rest | rest <- product el (r - t - 1)].
  by apply: map_f; rewrite mem_rev mem_iota.
rewrite ec; apply: map_f; rewrite mem_product; apply/andP; split; last by apply/allP.
by apply/eqP; move: sc; rewrite ec size_cat size_nseq /=; lia.
Qed.

Lemma normal_inj t t' (rest rest' : vec) : nseq t 0 ++ 1 :: rest = nseq t' 0 ++ 1 :: rest' -> t = t' /\ rest = rest'.
Proof.
elim: t t' => [|t IH] [|t'] /=.
- by case.
- by case=> /eqP; rewrite oner_eq0.
- by case=> /eqP; rewrite eq_sym oner_eq0.
by case=> /IH [-> ->].
Qed.

Lemma qary_uniq r : uniq (flatten [seq [seq nseq top 0 ++ 1 :: rest | rest <- product el (r - top - 1)] | top <- rev (iota 0 r)]).
Proof.
have : uniq (rev (iota 0 r)) by rewrite rev_uniq iota_uniq.
elim: (rev (iota 0 r)) => // t ts IH /= /andP [nt /IH h]; rewrite cat_uniq h andbT; apply/andP; split.
  by rewrite map_inj_uniq ?uniq_product // => x y /normal_inj [].
apply/hasPn => c /flattenP [cs /mapP [t' ht' ->] /mapP [rest _ ->]]; apply/mapP => -[rest' _ /normal_inj [e _]].
by move: nt; rewrite -e ht'.
Qed.

Lemma hamming_colsP r c : c \in hamming_cols el r <-> size c = r /\ normal c.
Proof. by rewrite /hamming_cols; case: eqP => [/binary_cols|_]; [apply | exact: qary_cols]. Qed.
Lemma hamming_uniq r : uniq (hamming_cols el r).
Proof.
rewrite /hamming_cols; case: eqP => [s2|_]; last exact: qary_uniq.
have : uniq (product [:: 0; 1 : F] r) by apply: uniq_product; rewrite /= inE andbT eq_sym oner_neq0.
by rewrite product_head /= => /andP [].
Qed.

Lemma normal_unit r i : (i < r)%N -> normal (vunit F r i).
Proof.
move=> li; exists i, (nseq (r - i.+1) 0); apply: (@eq_from_nth _ 0) => [|k]; rewrite size_vunit.
  by rewrite size_cat size_nseq /= size_nseq; lia.
move=> lk; rewrite nth_mkseq // nth_cat size_nseq; case: ltngtP => h; rewrite ?nth_nseq.
- by rewrite h.
- have -> : (k - i = (k - i.+1).+1)%N by lia.
  by rewrite /= nth_nseq; case: ifP.
by rewrite h subnn.
Qed.

Lemma hamming_unit r i : (i < r)%N -> vunit F r i \in hamming_cols el r.
Proof. by move=> li; apply/hamming_colsP; rewrite size_vunit; split=> //; apply: normal_unit. Qed.

Lemma hamming_wf r : wf r (hamming_cols el r). Proof. by apply/wfP => c /hamming_colsP []. Qed.

Lemma top_two r : (1 < r)%N ->
  [/\ vunit F r r.-1 \in hamming_cols el r, vunit F r r.-2 \in hamming_cols el r,
      vadd (vunit F r r.-1) (vunit F r r.-2) \in hamming_cols el r &
      uniq [:: vunit F r r.-1; vunit F r r.-2; vadd (vunit F r r.-1) (vunit F r r.-2)]].
Proof.
move=> r1; have r2 : (r.-1 < r)%N by lia. have r3 : (r.-2 < r)%N by lia.
have s12 : size (vunit F r r.-1) = size (vunit F r r.-2) by rewrite !size_vunit.
have n12 : (r.-1 == r.-2) = false by lia. have n21 : (r.-2 == r.-1) = false by lia.
split; try exact: hamming_unit.
  apply/hamming_colsP; split; first by rewrite size_vadd // size_vunit.
  exists r.-2, [:: 1]; apply: (@eq_from_nth _ 0) => [|k]; rewrite size_vadd // size_vunit.
    by rewrite size_cat size_nseq /=; lia.
  move=> lk; rewrite (nth_vadd k s12) !nth_mkseq // nth_cat size_nseq; case: ltnP => h.
    have [-> ->] : (k == r.-1) = false /\ (k == r.-2) = false by split; lia.
    by rewrite nth_nseq h addr0.
  case: (eqVneq k r.-2) => [->|nk]; first by rewrite subnn n21 add0r.
  have [-> ->] : (k - r.-2 = 1)%N /\ (k == r.-1) by split; lia.
  by rewrite addr0.
have d (u v : vec) k : nth 0 u k != nth 0 v k -> u != v by apply: contraNneq => ->.
rewrite /= !inE negb_or andbT; apply/andP; split; first apply/andP; first split.
- by apply: (d _ _ r.-1); rewrite !nth_mkseq // eqxx n12 oner_neq0.
- by apply: (d _ _ r.-2); rewrite (nth_vadd _ s12) !nth_mkseq // eqxx n21 add0r eq_sym oner_neq0.
by apply: (d _ _ r.-1); rewrite (nth_vadd _ s12) !nth_mkseq // eqxx n12 addr0 eq_sym oner_neq0.
Qed.

Lemma hamming_ok r : (0 < r)%N -> exists c, [/\ hamming_code el r = Some (c, Dist 3), cc_n c = size (hamming_cols el r),
  code_ok c, has_dim (cc_n c) (cc_mat c) (cc_n c - r) /\ dimension c = (cc_n c - r)%N & ((1 < r)%N -> is_dist (cc_n c) (cc_mat c) 3)].
Proof.
move=> r0; have hu := hamming_unit r0.
have [hd le] := col_dim (@hamming_unit r).
exists (CCode (size (hamming_cols el r)) (trl r (hamming_cols el r)) None (Some (size (hamming_cols el r) - r)%N)).
split.
- by rewrite /hamming_code; case: (hamming_cols el r) hu.
- by [].
- by split=> //=; [exact: col_wf | move=> k [<-]].
- by [].
move=> r1 /=; split.
  by have [ha hb hc uq] := top_two r1; apply: (col_three (@hamming_wf r) ha hb hc uq).
by move=> w; apply: col_lower; [exact: hamming_wf | exact: hamming_uniq | by move=> c /hamming_colsP []].
Qed.
Lemma size_product (e : vec) k : size (product e k) = (size e ^ k)%N.
Proof.
elim: k => // k IH /=; rewrite size_flatten /shape -map_comp expnS -IH.
by set p := product e k; elim: (e) => //= x e' ->; rewrite size_map mulSn.
Qed.
Lemma hamming_length r : (size (hamming_cols el r) * (size el - 1))%N = (size el ^ r - 1)%N.
Proof.
rewrite /hamming_cols; case: eqP => [-> | _].
  by rewrite size_behead size_product muln1 -subn1.
have ei : iota 0 r = index_iota 0 r by rewrite /index_iota subn0.
rewrite size_flatten /shape -map_comp map_rev sumn_rev sumnE big_map ei big_mkord.
rewrite (reindex_inj rev_ord_inj) /= !subn1 predn_exp mulnC; congr muln; apply: eq_bigr => i _.
rewrite size_map size_product; congr expn; have := ltn_ord i; lia.
Qed.
End Hamming.
End Proofs.
