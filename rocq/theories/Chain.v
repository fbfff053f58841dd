(* Chain complexes: model of qldpc/objects.py:352-551 (ChainComplex). *)
From mathcomp Require Import all_ssreflect all_algebra zify.
Set Implicit Arguments.
Unset Strict Implicit.
Unset Printing Implicit Defensive.
Import GRing.Theory.

(* ============================================================================== model *)
(* a two-dimensional array: its shape and its entries (only those within the shape matter) *)
Record arr (T : Type) := Arr { nr : nat; nc : nat; at2 : nat -> nat -> T }.

Section Model.
(* entries: the integer 0, the product of an entry with an integer 0 or 1, and with (-1)^k.  A section over the entry type
   because the same code runs on arrays over a field and on arrays over a group algebra *)
Variables (T : Type) (zero : T) (scal : T -> bool -> T) (sgn : T -> nat -> T).
Notation arr := (arr T).

Definition zeros (m n : nat) : arr := Arr m n (fun _ _ => zero).
(* np.kron(A, np.identity(n)) and np.kron(np.identity(n), B) *)
Definition kronI (A : arr) (n : nat) : arr :=
  Arr (nr A * n) (nc A * n) (fun i j => scal (at2 A (i %/ n) (j %/ n)) (i %% n == j %% n)).
Definition Ikron (n : nat) (B : arr) : arr :=
  Arr (n * nr B) (n * nc B) (fun i j => scal (at2 B (i %% nr B) (j %% nc B)) (i %/ nr B == j %/ nc B)).
Definition signed (A : arr) (k : nat) : arr := Arr (nr A) (nc A) (fun i j => sgn (at2 A i j) k).

(* np.block(blocks): rows of blocks side by side, one above the other; ValueError (None) when the shapes do not match *)
Definition hcat2 (A B : arr) : arr := Arr (nr A) (nc A + nc B) (fun i j => if (j < nc A)%N then at2 A i j else at2 B i (j - nc A)).
Definition vcat2 (A B : arr) : arr := Arr (nr A + nr B) (nc A) (fun i j => if (i < nr A)%N then at2 A i j else at2 B (i - nr A) j).
Definition hcats (bs : seq arr) : option arr :=
  if bs is b :: bs' then if all (fun c => nr c == nr b) bs' then Some (foldl hcat2 b bs') else None else None.
Definition vcats (bs : seq arr) : option arr :=
  if bs is b :: bs' then if all (fun c => nc c == nc b) bs' then Some (foldl vcat2 b bs') else None else None.
Definition block (bss : seq (seq arr)) : option arr :=
  if all isSome [seq hcats bs | bs <- bss] then vcats (pmap hcats bss) else None.

(* objects.py:352-460: a chain complex is the list of its boundary operators (d_1, ..., d_n); op(degree) and dim(degree).
   Simplification: degrees outside 0 .. n + 1, where the assertion fails, give an empty array *)
Definition op (c : seq arr) (deg : nat) : arr :=
  if deg is k.+1 then
    if (k == size c)%N then zeros (nc (nth (zeros 0 0) c k.-1)) 0 else nth (zeros 0 0) c k
  else zeros 0 (nr (nth (zeros 0 0) c 0)).
Definition dim (c : seq arr) (deg : nat) : nat := nc (op c deg).

(* objects.py:499-504: get_degree_pairs *)
Definition degree_pairs (na nb deg : nat) : seq (nat * nat) :=
  [seq (a, deg - a)%N | a <- rev (iota (deg - nb) ((minn na deg).+1 - (deg - nb)))].
(* objects.py:506-509: get_block_index *)
Definition block_index (na a b : nat) : nat := minn na (a + b) - a.
(* blocks[row][col] = x *)
Definition upd (U : Type) (s : seq U) (k : nat) (f : U -> U) : seq U :=
  [seq (if p.1 == k then f p.2 else p.2) | p <- zip (iota 0 (size s)) s].
Definition put (bs : seq (seq arr)) (r c : nat) (x : arr) : seq (seq arr) := upd bs r (fun row => upd row c (fun _ => x)).

Section Tensor.
Variables A B : seq arr.
Let na := size A.
Let nb := size B.
(* objects.py:511-519: get_zero_block *)
Definition zero_block (p q : nat * nat) : arr := zeros (dim A p.1 * dim B p.2) (dim A q.1 * dim B q.2).
(* objects.py:524-527 *)
Definition zero_blocks (deg : nat) : seq (seq arr) :=
  [seq [seq zero_block p q | q <- degree_pairs na nb deg] | p <- degree_pairs na nb deg.-1].
(* objects.py:530-543: the body of the loop over the columns of blocks *)
Definition fill (bs : seq (seq arr)) (t : nat * (nat * nat)) : seq (seq arr) :=
  let: (col, (a, b)) := t in
  let bs1 := if (0 < a)%N then put bs (block_index na a.-1 b) col (kronI (op A a) (nc (op B b))) else bs in
  if (0 < b)%N then put bs1 (block_index na a b.-1) col (signed (Ikron (nc (op A a)) (op B b)) a) else bs1.
Definition blocks (deg : nat) : seq (seq arr) :=
  foldl fill (zero_blocks deg) (zip (iota 0 (size (degree_pairs na nb deg))) (degree_pairs na nb deg)).
(* objects.py:464-551: tensor_product of two chain complexes *)
Definition tensor_product : option (seq arr) :=
  let os := [seq block (blocks deg) | deg <- iota 1 (na + nb)] in
  if all isSome os then Some (pmap id os) else None.
End Tensor.

(* objects.py:449-452: T; [tr] is what transposing an array does to an entry *)
Definition dual (tr : T -> T) (c : seq arr) : seq arr :=
  [seq Arr (nc M) (nr M) (fun i j => tr (at2 M j i)) | M <- rev c].

(* objects.py:415-422: _validate_ops; [mulsum] is an entry of op_a @ op_b and [tobool] the truth value of an entry *)
Definition validate (mulsum : seq (T * T) -> T) (tobool : T -> bool) (c : seq arr) : bool :=
  all (fun ab => (nc ab.1 == nr ab.2) &&
    all (fun i => all (fun j => ~~ tobool (mulsum [seq (at2 ab.1 i m, at2 ab.2 m j) | m <- iota 0 (nc ab.1)]))
      (iota 0 (nc ab.2))) (iota 0 (nr ab.1))) (zip c (behead c)).
End Model.

Local Open Scope ring_scope.
(* ====================================================================== specification *)
(* consecutive operators compose to zero, as matrices over a ring with entries read by phi *)
Section Spec.
Variables (T : Type) (R : ringType) (phi : T -> R).
Definition composes (M N : arr T) : Prop :=
  nc M = nr N /\ forall i j, (i < nr M)%N -> (j < nc N)%N -> \sum_(m < nc M) phi (at2 M i m) * phi (at2 N m j) = 0.
Fixpoint is_complex (c : seq (arr T)) : Prop :=
  if c is M :: c' then (if c' is N :: _ then composes M N else True) /\ is_complex c' else True.
End Spec.

(* ============================================================================= proofs *)
Section Blocks.
Variables (T : Type) (zero : T).
Notation arr := (arr T).
Implicit Types (bs : seq arr) (bss : seq (seq arr)).
Notation dflt := (zeros zero 0 0).

Fixpoint locate (ds : seq nat) (i : nat) : nat * nat :=
  if ds is d :: ds' then if (i < d)%N then (0%N, i) else let p := locate ds' (i - d) in (p.1.+1, p.2) else (0%N, i).

Lemma locateP ds i : (i < sumn ds)%N -> ((locate ds i).1 < size ds)%N /\ ((locate ds i).2 < nth 0%N ds (locate ds i).1)%N.
Proof.
elim: ds i => //= d ds IH i; case: (ltnP i d) => //= h hi.
by apply: IH; rewrite ltn_subLR.
Qed.

Lemma sum_locate (V : zmodType) ds (f : nat -> nat -> V) :
  \sum_(i < sumn ds) f (locate ds i).1 (locate ds i).2 = \sum_(k < size ds) \sum_(j < nth 0%N ds k) f k j.
Proof.
elim: ds f => [|d ds IH] f; first by rewrite !big_ord0.
rewrite /= big_split_ord big_ord_recl /=; congr (_ + _).
  by apply: eq_bigr => i _; rewrite ltn_ord.
rewrite -(IH (fun k j => f k.+1 j)); apply: eq_bigr => i _.
by rewrite ltnNge leq_addr /= addKn.
Qed.

Lemma hcatsE bs b m ds : all (fun c => nr c == m) (b :: bs) -> [seq nc c | c <- b :: bs] = ds ->
  exists M, [/\ hcats (b :: bs) = Some M, nr M = m, nc M = sumn ds &
    forall i j, (j < sumn ds)%N -> at2 M i j = at2 (nth dflt (b :: bs) (locate ds j).1) i (locate ds j).2].
Proof.
move=> /= /andP [/eqP eb hb] <-; rewrite eb hb; exists (foldl (@hcat2 T) b bs).
have h M ms ds0 : nr M = m -> nc M = sumn ds0 ->
    (forall i j, (j < sumn ds0)%N -> at2 M i j = at2 (nth dflt ms (locate ds0 j).1) i (locate ds0 j).2) -> size ms = size ds0 ->
    [/\ nr (foldl (@hcat2 T) M bs) = m, nc (foldl (@hcat2 T) M bs) = sumn (ds0 ++ [seq nc c | c <- bs]) &
      forall i j, (j < sumn (ds0 ++ [seq nc c | c <- bs]))%N -> at2 (foldl (@hcat2 T) M bs) i j =
        at2 (nth dflt (ms ++ bs) (locate (ds0 ++ [seq nc c | c <- bs]) j).1) i (locate (ds0 ++ [seq nc c | c <- bs]) j).2].
  elim: bs hb M ms ds0 => [|c bs IH] hb M ms ds0 e1 e2 e3 e4 /=; first by rewrite !cats0.
  case/andP: hb => /eqP ec hb; have [] := IH hb (hcat2 M c) (rcons ms c) (rcons ds0 (nc c)) _ _ _ _ => //=.
  - by rewrite e2 -cats1 sumn_cat /= addn0.
  - move=> i j; rewrite -cats1 sumn_cat /= addn0 e2 => hj.
    have loc : locate (ds0 ++ [:: nc c]) j = if (j < sumn ds0)%N then locate ds0 j else (size ds0, j - sumn ds0)%N.
      elim: (ds0) (j) hj => [|d ds1 IH1] k /=; first by rewrite add0n subn0 => ->.
      case: (ltnP k d) => hk hj; first by rewrite (leq_trans hk (leq_addr _ _)).
      rewrite IH1; last by rewrite ltn_subLR // addnA.
      rewrite ltn_subLR //; case: ltnP => //= h; by rewrite subnDA.
    rewrite loc; case: ltnP => hj'; rewrite nth_rcons.
      by rewrite e4; have [-> _] := locateP hj'; rewrite e3.
    by rewrite /= e4 ltnn eqxx.
  - by rewrite !size_rcons e4.
  by rewrite !cat_rcons.
have [|||| h1 h2 h3] := h b [:: b] [:: nc b]; rewrite ?/= ?addn0 //.
by move=> i j hj; rewrite hj.
Qed.

Lemma vcatsE bs b n ds : all (fun c => nc c == n) (b :: bs) -> [seq nr c | c <- b :: bs] = ds ->
  exists M, [/\ vcats (b :: bs) = Some M, nc M = n, nr M = sumn ds &
    forall i j, (i < sumn ds)%N -> at2 M i j = at2 (nth dflt (b :: bs) (locate ds i).1) (locate ds i).2 j].
Proof.
move=> /= /andP [/eqP eb hb] <-; rewrite eb hb; exists (foldl (@vcat2 T) b bs).
have h M ms ds0 : nc M = n -> nr M = sumn ds0 ->
    (forall i j, (i < sumn ds0)%N -> at2 M i j = at2 (nth dflt ms (locate ds0 i).1) (locate ds0 i).2 j) -> size ms = size ds0 ->
    [/\ nc (foldl (@vcat2 T) M bs) = n, nr (foldl (@vcat2 T) M bs) = sumn (ds0 ++ [seq nr c | c <- bs]) &
      forall i j, (i < sumn (ds0 ++ [seq nr c | c <- bs]))%N -> at2 (foldl (@vcat2 T) M bs) i j =
        at2 (nth dflt (ms ++ bs) (locate (ds0 ++ [seq nr c | c <- bs]) i).1) (locate (ds0 ++ [seq nr c | c <- bs]) i).2 j].
  elim: bs hb M ms ds0 => [|c bs IH] hb M ms ds0 e1 e2 e3 e4 /=; first by rewrite !cats0.
  case/andP: hb => /eqP ec hb; have [] := IH hb (vcat2 M c) (rcons ms c) (rcons ds0 (nr c)) _ _ _ _ => //=.
  - by rewrite e2 -cats1 sumn_cat /= addn0.
  - move=> i j; rewrite -cats1 sumn_cat /= addn0 e2 => hj.
    have loc : locate (ds0 ++ [:: nr c]) i = if (i < sumn ds0)%N then locate ds0 i else (size ds0, i - sumn ds0)%N.
      elim: (ds0) (i) hj => [|d ds1 IH1] k /=; first by rewrite add0n subn0 => ->.
      case: (ltnP k d) => hk hj; first by rewrite (leq_trans hk (leq_addr _ _)).
      rewrite IH1; last by rewrite ltn_subLR // addnA.
      rewrite ltn_subLR //; case: ltnP => //= h; by rewrite subnDA.
    rewrite loc; case: ltnP => hj'; rewrite nth_rcons.
      by rewrite e4; have [-> _] := locateP hj'; rewrite e3.
    by rewrite /= e4 ltnn eqxx.
  - by rewrite !size_rcons e4.
  by rewrite !cat_rcons.
have [|||| h1 h2 h3] := h b [:: b] [:: nr b]; rewrite ?/= ?addn0 //.
by move=> i j hj; rewrite hj.
Qed.

(* a grid of blocks with matching shapes *)
Lemma blockE bss (rs cs : seq nat) : (0 < size rs)%N -> (0 < size cs)%N -> size bss = size rs ->
  (forall a, (a < size rs)%N -> size (nth [::] bss a) = size cs) ->
  (forall a b, (a < size rs)%N -> (b < size cs)%N ->
     nr (nth dflt (nth [::] bss a) b) = nth 0%N rs a /\ nc (nth dflt (nth [::] bss a) b) = nth 0%N cs b) ->
  exists M, [/\ block bss = Some M, nr M = sumn rs, nc M = sumn cs &
    forall i j, (i < sumn rs)%N -> (j < sumn cs)%N -> at2 M i j =
      at2 (nth dflt (nth [::] bss (locate rs i).1) (locate cs j).1) (locate rs i).2 (locate cs j).2].
Proof.
move=> r0 c0 sb sr sh.
have row a : (a < size rs)%N -> exists M, [/\ hcats (nth [::] bss a) = Some M, nr M = nth 0%N rs a, nc M = sumn cs &
    forall i j, (j < sumn cs)%N -> at2 M i j = at2 (nth dflt (nth [::] bss a) (locate cs j).1) i (locate cs j).2].
  move=> ha; move: (sr a ha) (sh a) => {}sr {}sh; case: (nth [::] bss a) sr sh => [|b bs] sr sh; first by rewrite -sr in c0.
  apply: hcatsE.
    by apply/(all_nthP dflt) => k hk; apply/eqP; have [] := sh k ha; rewrite -?sr.
  apply: (@eq_from_nth _ 0%N); rewrite size_map // => k hk.
  by rewrite (nth_map dflt) //; have [] := sh k ha; rewrite -?sr.
have [Ms [e1 e2 e3 e4 e5]] : exists Ms : seq arr, [/\ all isSome [seq hcats bs | bs <- bss], pmap (@hcats T) bss = Ms,
    [seq nr c | c <- Ms] = rs, all (fun c => nc c == sumn cs) Ms &
    forall a i j, (a < size rs)%N -> (j < sumn cs)%N -> at2 (nth dflt Ms a) i j =
       at2 (nth dflt (nth [::] bss a) (locate cs j).1) i (locate cs j).2].
  move: row sb {sr sh r0}; elim: bss rs => [|bs bss IH] [|r rs] //= row sb; first by exists [::].
  case: sb => sb.
  have [|Ms [e1 e2 e3 e4 e5]] := IH rs _ sb; first by move=> a ha; apply: (row a.+1).
  have [M [h1 h2 h3 h4]] := row 0%N isT; rewrite /= in h1 h2 h3 h4.
  exists (M :: Ms); rewrite h1 /= e1 e2 e3 e4 h2 h3 eqxx; split=> // [] [|a] i j ha hj /=; first exact: h4.
  exact: e5.
rewrite /block e1 e2; case: Ms e2 e3 e4 e5 => [|M0 Ms] e2 e3 e4 e5; first by rewrite -e3 in r0.
have [M [h1 h2 h3 h4]] := vcatsE e4 e3; exists M; split=> // i j hi hj.
by rewrite h4 // e5 //; have [] := locateP hi.
Qed.
End Blocks.

Lemma size_upd (U : Type) (s : seq U) k f : size (upd s k f) = size s.
Proof. by rewrite size_map size_zip size_iota minnn. Qed.
Lemma nth_upd (U : Type) (x : U) s k f i : (i < size s)%N -> nth x (upd s k f) i = if i == k then f (nth x s i) else nth x s i.
Proof.
move=> hi; rewrite (nth_map (0%N, x)) ?size_zip ?size_iota ?minnn // nth_zip ?size_iota //=.
by rewrite nth_iota // add0n.
Qed.

Lemma size_pairs na nb d : size (degree_pairs na nb d) = ((minn na d).+1 - (d - nb))%N.
Proof. by rewrite size_map size_rev size_iota. Qed.
Lemma nth_pairs na nb d k : (k < size (degree_pairs na nb d))%N ->
  nth (0, 0)%N (degree_pairs na nb d) k = (minn na d - k, d - (minn na d - k))%N.
Proof.
rewrite size_pairs => hk; rewrite (nth_map 0%N) ?size_rev ?size_iota // nth_rev ?size_iota // nth_iota; last by lia.
by congr pair; lia.
Qed.
Lemma mem_pairs na nb d a b : ((a, b) \in degree_pairs na nb d) = [&& a <= na, b <= nb & a + b == d]%N.
Proof.
apply/mapP/and3P => [[x] | [ha hb /eqP <-]].
  by rewrite mem_rev mem_iota => hx [-> ->]; split; lia.
exists a; last by congr pair; lia.
by rewrite mem_rev mem_iota; lia.
Qed.
Lemma uniq_pairs na nb d : uniq (degree_pairs na nb d).
Proof. by rewrite map_inj_uniq ?rev_uniq ?iota_uniq // => a b []. Qed.

Lemma pairs_index na nb d k a b : (k < size (degree_pairs na nb d))%N -> nth (0, 0)%N (degree_pairs na nb d) k = (a, b) ->
  [/\ a <= na, b <= nb, a + b = d & k = block_index na a b]%N.
Proof.
move=> hk e; have : (a, b) \in degree_pairs na nb d by rewrite -e mem_nth.
rewrite mem_pairs => /and3P [ha hb /eqP hab]; split=> //; rewrite (nth_pairs hk) in e; case: e => e _.
by rewrite size_pairs in hk; rewrite /block_index hab -e; move: hk; case: (leqP na d) => h; clear -h; lia.
Qed.
Lemma index_inj na a b p q : (a <= na)%N -> (p <= na)%N -> (a + b = p + q)%N ->
  (block_index na p q == block_index na a b) = (a == p) && (b == q).
Proof.
move=> ha hp e; rewrite /block_index e; apply/eqP/andP => [h | [/eqP -> /eqP _] //].
have : a = p by move: h; case: (leqP na (p + q)); lia.
by move=> eap; split; apply/eqP; lia.
Qed.

Section TensorBlocks.
Variables (T : Type) (zero : T) (scal : T -> bool -> T) (sgn : T -> nat -> T).
Notation arr := (arr T).
Variables A B : seq arr.
Hypotheses (A0 : (0 < size A)%N) (B0 : (0 < size B)%N).
Notation na := (size A).
Notation nb := (size B).
Notation opA := (op zero A).
Notation opB := (op zero B).
Notation dimA := (dim zero A).
Notation dimB := (dim zero B).
Notation dflt := (zeros zero 0 0).
Notation pairs := (degree_pairs na nb).
Notation fill := (fill zero scal sgn A B).
Notation get bs r c := (nth dflt (nth [::] bs r) c).

(* the block of the total boundary operator between two sectors *)
Definition blk (p q : nat * nat) : arr :=
  if (q.1 == p.1.+1) && (q.2 == p.2) then kronI scal (opA q.1) (dimB q.2)
  else if (q.1 == p.1) && (q.2 == p.2.+1) then signed sgn (Ikron scal (dimA q.1) (opB q.2)) q.1
  else zeros zero (dimA p.1 * dimB p.2) (dimA q.1 * dimB q.2).

Definition grid (m n : nat) (bs : seq (seq arr)) : bool := (size bs == m) && all (fun r => size r == n) bs.
Lemma grid_row m n bs r : grid m n bs -> (r < m)%N -> size (nth [::] bs r) = n.
Proof. by case/andP => /eqP <- /all_nthP h hr; apply/eqP/h. Qed.
Lemma grid_put m n bs r c x : grid m n bs -> grid m n (put bs r c x).
Proof.
move=> g; have /andP [/eqP s _] := g; rewrite /grid size_upd s eqxx /=; apply/(all_nthP [::]) => k; rewrite size_upd => hk.
by rewrite nth_upd //; case: (k == r); rewrite ?size_upd (grid_row g) // -s.
Qed.
Lemma get_put m n bs r c x r' c' : grid m n bs -> (r' < m)%N -> (c' < n)%N ->
  get (put bs r c x) r' c' = if (r' == r) && (c' == c) then x else get bs r' c'.
Proof.
move=> g hr hc; have /andP [/eqP s _] := g; rewrite nth_upd ?s //; case: eqP => //= _.
by rewrite nth_upd ?(grid_row g).
Qed.

Lemma grid_fill m n bs t : grid m n bs -> grid m n (fill bs t).
Proof. by case: t => c [a b] g /=; case: ifP => _; case: ifP => _; rewrite ?grid_put. Qed.
Lemma get_fill_other m n bs c p r c' : grid m n bs -> (r < m)%N -> (c' < n)%N -> c' != c -> get (fill bs (c, p)) r c' = get bs r c'.
Proof.
case: p => a b g hr hc /negbTE ne /=; case: ifP => _; case: ifP => _;
  by rewrite ?(@get_put m n) ?grid_put ?ne ?andbF.
Qed.

Lemma get_fill_ext m n bs bs' c p r : grid m n bs -> grid m n bs' -> (r < m)%N -> (c < n)%N -> get bs r c = get bs' r c ->
  get (fill bs (c, p)) r c = get (fill bs' (c, p)) r c.
Proof.
case: p => a b g g' hr hc e /=; case: ifP => _; case: ifP => _; by rewrite ?(@get_put m n) ?grid_put ?e.
Qed.

Lemma get_fills m n bs qs c0 r c : grid m n bs -> (r < m)%N -> (c < n)%N ->
  get (foldl fill bs (zip (iota c0 (size qs)) qs)) r c =
  if (c0 <= c < c0 + size qs)%N then get (fill bs (c, nth (0, 0)%N qs (c - c0))) r c else get bs r c.
Proof.
elim: qs bs c0 => [|q qs IH] bs c0 g hr hc; first by rewrite /= addn0; case: ifP => // h; lia.
have g1 : grid m n (fill bs (c0, q)) by apply: grid_fill.
transitivity (get (foldl fill (fill bs (c0, q)) (zip (iota c0.+1 (size qs)) qs)) r c); first by [].
rewrite IH // addSnnS -[(size qs).+1]/(size (q :: qs)).
case: (ltngtP c0 c) => [h | h | <-].
- have -> : (c - c0 = (c - c0.+1).+1)%N by lia.
  rewrite [nth _ (q :: qs) _]/= andTb; case: ifP => // _; last by rewrite (@get_fill_other m n) // gtn_eqF.
  have e : get (fill bs (c0, q)) r c = get bs r c by rewrite (@get_fill_other m n) // gtn_eqF.
  exact: (@get_fill_ext m n).
- by rewrite !andFb (@get_fill_other m n) // ltn_eqF.
by rewrite subnn andFb andTb -[size (q :: qs)]/((size qs).+1) addnS ltnS leq_addr.
Qed.

Lemma grid_zero d : grid (size (pairs d.-1)) (size (pairs d)) (zero_blocks zero A B d).
Proof. by rewrite /grid size_map eqxx /= all_map; apply/allP => p _ /=; rewrite size_map. Qed.
Lemma grid_blocks d : grid (size (pairs d.-1)) (size (pairs d)) (blocks zero scal sgn A B d).
Proof.
rewrite /blocks; move: (zip _ _) (zero_blocks _ _ _ _) (grid_zero d) => ts bs.
by elim: ts bs => //= t ts IH bs g; apply/IH/grid_fill.
Qed.

Lemma get_blocks d r c : (0 < d <= na + nb)%N -> (r < size (pairs d.-1))%N -> (c < size (pairs d))%N ->
  get (blocks zero scal sgn A B d) r c = blk (nth (0, 0)%N (pairs d.-1) r) (nth (0, 0)%N (pairs d) c).
Proof.
move=> hd hr hc; rewrite (get_fills _ _ (grid_zero d)) // add0n hc subn0 /=.
have g := grid_zero d.
have z : get (zero_blocks zero A B d) r c = zeros zero (dimA (nth (0, 0)%N (pairs d.-1) r).1 * dimB (nth (0, 0)%N (pairs d.-1) r).2)
    (dimA (nth (0, 0)%N (pairs d) c).1 * dimB (nth (0, 0)%N (pairs d) c).2).
  by rewrite (nth_map (0, 0)%N) // (nth_map (0, 0)%N).
have := @pairs_index _ _ _ _ _ _ hc (surjective_pairing _); have := @pairs_index _ _ _ _ _ _ hr (surjective_pairing _).
move: (nth _ (pairs d) c) (nth _ (pairs d.-1) r) z => [a b] [p q] z; rewrite /blk [_.1]/= [_.2]/= in z *.
case=> hp hq epq er []; rewrite [_.1]/= [_.2]/= => ha hb eab ec; rewrite [(a, b).1]/= [(a, b).2]/= in z *.
have i1 : (0 < a)%N -> (r == block_index na a.-1 b) = (a == p.+1) && (b == q).
  by move=> a0; rewrite er index_inj; [case: (a) a0 | lia | | lia].
have i2 : (0 < b)%N -> (r == block_index na a b.-1) = (a == p) && (b == q.+1).
  by move=> b0; rewrite er index_inj; [case: (b) b0 | | | lia].
case: (posnP a) => [a0|a0]; case: (posnP b) => [b0|b0] /=.
- by move: hd eab a0 b0; clear; lia.
- by rewrite (get_put _ _ _ g) // eqxx andbT i2 // z a0.
- rewrite (get_put _ _ _ g) // eqxx andbT i1 // z b0; case: ifP => // _; by rewrite andbF.
- rewrite (@get_put (size (pairs d.-1)) (size (pairs d))) ?grid_put // eqxx andbT i2 //.
  rewrite (get_put _ _ _ g) // eqxx andbT i1 // z.
  case: ifP => [/andP [/eqP e1 /eqP e2] | _] //.
  by case: ifP => // /andP [/eqP e3 /eqP e4]; move: e1 e3; clear; lia.
Qed.
End TensorBlocks.

Section Sums.
Lemma sum_divmod (V : zmodType) a b (f : nat -> nat -> V) :
  \sum_(m < a * b) f (m %/ b)%N (m %% b)%N = \sum_(i < a) \sum_(j < b) f i j.
Proof.
elim: a => [|a IH]; first by rewrite mul0n !big_ord0.
rewrite mulSnr big_split_ord big_ord_recr; congr (_ + _); first by rewrite -IH; apply: eq_bigr.
apply: eq_bigr => j _ /=; have b0 : (0 < b)%N by apply: leq_ltn_trans (ltn_ord j).
by rewrite divnMDl // divn_small // addn0 modnMDl modn_small.
Qed.
Lemma sum_delta (R : ringType) n k (f : nat -> R) : (k < n)%N -> \sum_(j < n) f j * (j == k :> nat)%:R = f k.
Proof.
move=> hk; rewrite (bigD1 (Ordinal hk)) //= eqxx mulr1 big1 ?addr0 // => j.
by rewrite -val_eqE /= => /negbTE ->; rewrite mulr0.
Qed.
Lemma mul_units (R : ringType) (x y : R) a b u v :
  (-1) ^+ a * (x * u%:R) * ((-1) ^+ b * (y * v%:R)) = (-1) ^+ (a + b) * (x * y) * (u * v)%N%:R.
Proof.
rewrite !mulr_natr !mulrnAr !mulrnAl mulrnA; rewrite -?mulrnA mulnC; congr (_ *+ _).
rewrite -(signr_odd _ a) -(signr_odd _ b) -(signr_odd _ (a + b)) oddD.
by case: (odd a); case: (odd b); rewrite /= ?expr0 ?expr1 ?mul1r ?mulN1r ?mulrNN ?mulNr ?mulrN ?opprK.
Qed.
Lemma sum_one (V : zmodType) (I : eqType) (s : seq I) b (x : V) : uniq s ->
  \sum_(i <- s) (if i == b then x else 0) = if b \in s then x else 0.
Proof.
elim: s => [|i s IH] /=; first by rewrite big_nil.
rewrite big_cons in_cons => /andP [ni u]; rewrite IH // eq_sym; case: eqP => [->|_] /=; last by rewrite add0r.
by rewrite (negbTE ni) addr0.
Qed.
Lemma sum_two (V : zmodType) (I : eqType) (s : seq I) b c (f : I -> V) : uniq s -> b != c ->
  (forall i, i != b -> i != c -> f i = 0) -> \sum_(i <- s) f i = (if b \in s then f b else 0) + (if c \in s then f c else 0).
Proof.
move=> u ne h; rewrite -!sum_one // -big_split; apply: eq_bigr => i _ /=.
case: eqP => [->|/eqP n1]; first by rewrite (negbTE ne) addr0.
by case: eqP => [->|/eqP n2]; rewrite add0r // h.
Qed.
End Sums.

Section Compose.
Variables (T : Type) (zero : T) (scal : T -> bool -> T) (sgn : T -> nat -> T).
Variables (R : ringType) (phi : T -> R) (ok : T -> Prop).
Notation arr := (arr T).
Hypotheses (phi0 : phi zero = 0) (phi_scal : forall x b, ok x -> phi (scal x b) = phi x * b%:R).
Hypotheses (ok_scal : forall x b, ok x -> ok (scal x b)) (phi_sgn : forall x k, ok x -> phi (sgn x k) = (-1) ^+ k * phi x).

Definition entries (P : T -> Prop) (M : arr) : Prop := forall i j, (i < nr M)%N -> (j < nc M)%N -> P (at2 M i j).
Fixpoint all_entries (P : T -> Prop) (c : seq arr) : Prop := if c is M :: c' then entries P M /\ all_entries P c' else True.

Lemma all_entriesP P c k : all_entries P c -> (k < size c)%N -> entries P (nth (zeros zero 0 0) c k).
Proof. by elim: c k => //= M c IH [|k] [h1 h2] //= hk; apply: IH. Qed.
Lemma is_complexP c k : is_complex phi c -> (k.+1 < size c)%N ->
  composes phi (nth (zeros zero 0 0) c k) (nth (zeros zero 0 0) c k.+1).
Proof. by elim: c k => //= M [|N c] IH [|k] //= [h1 h2] hk //; apply: (IH k). Qed.
Lemma is_complexI c : (forall k, (k.+1 < size c)%N -> composes phi (nth (zeros zero 0 0) c k) (nth (zeros zero 0 0) c k.+1)) ->
  is_complex phi c.
Proof.
elim: c => //= M [|N c] IH h //; split; first exact: (h 0%N).
by apply: IH => k hk; apply: (h k.+1).
Qed.

Lemma opS c k : (k < size c)%N -> op zero c k.+1 = nth (zeros zero 0 0) c k.
Proof. by move=> h; rewrite /= ltn_eqF. Qed.
Lemma nr_op c k : is_complex phi c -> (k < size c)%N -> nr (op zero c k.+1) = dim zero c k.
Proof.
move=> h hk; rewrite opS // /dim; case: k hk => [|k] hk; first by [].
by rewrite opS ?(ltnW hk) //; have [-> _] := is_complexP h hk.
Qed.

Variables A B : seq arr.
Hypotheses (A0 : (0 < size A)%N) (B0 : (0 < size B)%N) (cA : is_complex phi A) (cB : is_complex phi B).
Hypotheses (oA : all_entries ok A) (oB : all_entries ok B).
Hypothesis comm : all_entries (fun x => all_entries (fun y => phi x * phi y = phi y * phi x) B) A.
Notation na := (size A).
Notation nb := (size B).
Notation opA := (op zero A).
Notation opB := (op zero B).
Notation dimA := (dim zero A).
Notation dimB := (dim zero B).
Notation pairs := (degree_pairs na nb).
Notation bk := (blk zero scal sgn A B).

Lemma blk_shape d p q : p \in pairs d -> q \in pairs d.+1 ->
  nr (bk p q) = (dimA p.1 * dimB p.2)%N /\ nc (bk p q) = (dimA q.1 * dimB q.2)%N.
Proof.
case: p q => [a b] [a' b']; rewrite !mem_pairs => /and3P [ha hb _] /and3P [ha' hb' _]; rewrite /blk /=.
case: ifP => [/andP [/eqP e1 /eqP e2] | _]; last case: ifP => [/andP [/eqP e1 /eqP e2] | _] //=.
  by subst a' b'; rewrite /kronI [nr _]/= [nc _]/= (nr_op cA).
by subst a' b'; rewrite [nr _]/= [nc _]/= (nr_op cB).
Qed.

Lemma blk1E a b : bk (a, b) (a.+1, b) = kronI scal (opA a.+1) (dimB b).
Proof. by rewrite /blk ifT // !eqxx. Qed.
Lemma blk2E a b : bk (a, b) (a, b.+1) = signed sgn (Ikron scal (dimA a) (opB b.+1)) a.
Proof. by rewrite /blk ifF ?ifT // ?eqxx //=; apply/negbTE; rewrite eqn_leq ltnn andbF. Qed.
Lemma phi_blk1 a b i j : (a < na)%N -> (i < dimA a * dimB b)%N -> (j < dimA a.+1 * dimB b)%N ->
  phi (at2 (bk (a, b) (a.+1, b)) i j) = phi (at2 (opA a.+1) (i %/ dimB b) (j %/ dimB b)) * (i %% dimB b == j %% dimB b)%N%:R.
Proof.
move=> ha hi hj; rewrite blk1E /kronI /at2 -/(@at2 T); apply: phi_scal.
have n0 : (0 < dimB b)%N by move: hi; case: (dimB b) => //; rewrite muln0.
by have := all_entriesP oA ha; rewrite -(opS ha); apply; rewrite ?(nr_op cA) // ltn_divLR.
Qed.
Lemma phi_blk2 a b i j : (b < nb)%N -> (i < dimA a * dimB b)%N -> (j < dimA a * dimB b.+1)%N ->
  phi (at2 (bk (a, b) (a, b.+1)) i j) =
  (-1) ^+ a * (phi (at2 (opB b.+1) (i %% dimB b) (j %% dimB b.+1)) * (i %/ dimB b == j %/ dimB b.+1)%N%:R).
Proof.
move=> hb hi hj; rewrite blk2E /signed /Ikron /at2 -/(@at2 T) (nr_op cB hb) -/(dimB b.+1).
have h : ok (at2 (opB b.+1) (i %% dimB b) (j %% dimB b.+1)).
  have := all_entriesP oB hb; rewrite -(opS hb); apply; rewrite ?(nr_op cB) // ltn_mod.
    by move: hi; case: (dimB b) => //; rewrite muln0.
  by move: hj; case: (dimB b.+1) => //; rewrite muln0.
by rewrite phi_sgn ?phi_scal //; apply: ok_scal.
Qed.
Lemma phi_blk0 p q i j : q != (p.1.+1, p.2) -> q != (p.1, p.2.+1) -> phi (at2 (bk p q) i j) = 0.
Proof.
case: p q => [a b] [a' b'] /=; rewrite !xpair_eqE /blk /= => /negbTE -> /negbTE ->; exact: phi0.
Qed.

Lemma comp0 M N n1 n2 n3 : composes phi M N -> nr M = n1 -> nc M = n2 -> nc N = n3 ->
  forall i j, (i < n1)%N -> (j < n3)%N -> \sum_(m < n2) phi (at2 M i m) * phi (at2 N m j) = 0.
Proof. by case=> _ h <- <- <-. Qed.

Definition S p q i j b := \sum_(m < dimA b.1 * dimB b.2) phi (at2 (bk p b) i m) * phi (at2 (bk b q) m j).

Lemma comp_blk d p q i j : p \in pairs d -> q \in pairs d.+2 -> (i < dimA p.1 * dimB p.2)%N -> (j < dimA q.1 * dimB q.2)%N ->
  \sum_(b <- pairs d.+1) S p q i j b = 0.
Proof.
case: p q => [a b] [a' b'] pp qq /= hi hj.
rewrite (@sum_two _ _ _ (a.+1, b) (a, b.+1)) ?uniq_pairs //; last first.
- by move=> c n1 n2; rewrite /S big1 // => m _; rewrite phi_blk0 // mul0r.
- by rewrite xpair_eqE eqn_leq ltnn.
have nbq : (0 < dimB b')%N by move: hj; case: (dimB b') => //; rewrite muln0.
have nbp : (0 < dimB b)%N by move: hi; case: (dimB b) => //; rewrite muln0.
have hi1 : (i %/ dimB b < dimA a)%N by rewrite ltn_divLR.
have hj1 : (j %/ dimB b' < dimA a')%N by rewrite ltn_divLR.
have hi2 : (i %% dimB b < dimB b)%N by rewrite ltn_mod.
have hj2 : (j %% dimB b' < dimB b')%N by rewrite ltn_mod.
move: pp qq; rewrite !mem_pairs => /and3P [ha hb /eqP ed] /and3P [ha' hb' /eqP ed'].
have z1 : (a', b') != (a.+2, b) -> (a', b') != (a.+1, b.+1) -> S (a, b) (a', b') i j (a.+1, b) = 0.
  by move=> n1 n2; rewrite /S big1 // => m _; rewrite (@phi_blk0 (a.+1, b)) // mulr0.
have z2 : (a', b') != (a.+1, b.+1) -> (a', b') != (a, b.+2) -> S (a, b) (a', b') i j (a, b.+1) = 0.
  by move=> n1 n2; rewrite /S big1 // => m _; rewrite (@phi_blk0 (a, b.+1)) // mulr0.
case: (altP (a' =P a.+2)) => [ea | n2].
  have eb : b' = b by lia.
  subst a' b'; rewrite {}z2 ?xpair_eqE; first 1 last. by clear; lia. by clear; lia.
  rewrite if_same addr0; case: ifP => // /and3P [ha1 hb1 _].
  have comp := comp0 (is_complexP cA (k := a) ha') (erefl _) (erefl _) (erefl _).
  move: comp; rewrite -!opS ?(ltnW ha') // (nr_op cA) ?(ltnW ha') // -/(dimA a.+1) -/(dimA a.+2) => comp.
  rewrite /S; under eq_bigr => m _ do rewrite phi_blk1 ?ltn_ord // phi_blk1 ?ltn_ord //.
  rewrite (sum_divmod _ _ (fun m1 m2 => phi (at2 (opA a.+1) (i %/ dimB b) m1) * (i %% dimB b == m2)%N%:R *
     (phi (at2 (opA a.+2) m1 (j %/ dimB b)) * (m2 == j %% dimB b)%N%:R))).
  rewrite exchange_big /= big1 // => m2 _.
  transitivity (\sum_(m1 < dimA a.+1) phi (at2 (opA a.+1) (i %/ dimB b) m1) * phi (at2 (opA a.+2) m1 (j %/ dimB b)) *
     ((i %% dimB b == m2) * (m2 == j %% dimB b :> nat))%N%:R).
    apply: eq_bigr => m1 _; have := mul_units (phi (at2 (opA a.+1) (i %/ dimB b) m1)) (phi (at2 (opA a.+2) m1 (j %/ dimB b))) 0 0.
    by move=> h; move: (h (i %% dimB b == m2)%N (m2 == j %% dimB b :> nat)%N); rewrite !expr0 !mul1r.
  by rewrite -mulr_suml comp // mul0r.
case: (altP (a' =P a)) => [ea | n0].
  have eb : b' = b.+2 by lia.
  subst a' b'; rewrite {}z1 ?xpair_eqE; first 1 last. by clear; lia. by clear; lia.
  rewrite if_same add0r; case: ifP => // /and3P [ha1 hb1 _].
  have comp := comp0 (is_complexP cB (k := b) hb') (erefl _) (erefl _) (erefl _).
  move: comp; rewrite -!opS ?(ltnW hb') // (nr_op cB) ?(ltnW hb') // -/(dimB b.+1) -/(dimB b.+2) => comp.
  rewrite /S; under eq_bigr => m _ do rewrite phi_blk2 ?ltn_ord // phi_blk2 ?ltn_ord // mul_units.
  rewrite (sum_divmod _ _ (fun m1 m2 => (-1) ^+ (a + a) * (phi (at2 (opB b.+1) (i %% dimB b) m2) *
     phi (at2 (opB b.+2) m2 (j %% dimB b.+2))) * ((i %/ dimB b == m1) * (m1 == j %/ dimB b.+2))%N%:R)).
  rewrite big1 // => m1 _.
  by rewrite -mulr_suml -mulr_sumr comp // mulr0 mul0r.
case: (altP (a' =P a.+1)) => [ea | n1]; last first.
  by rewrite z1 ?xpair_eqE ?z2 ?xpair_eqE ?if_same ?addr0 // ?(negbTE n0) ?(negbTE n1) ?(negbTE n2).
have eb : b' = b.+1 by lia.
subst a' b'; rewrite {z1 z2} ifT; last by rewrite ha' hb; lia.
rewrite ifT; last by rewrite ha hb'; lia.
have cm : phi (at2 (opA a.+1) (i %/ dimB b) (j %/ dimB b.+1)) * phi (at2 (opB b.+1) (i %% dimB b) (j %% dimB b.+1)) =
    phi (at2 (opB b.+1) (i %% dimB b) (j %% dimB b.+1)) * phi (at2 (opA a.+1) (i %/ dimB b) (j %/ dimB b.+1)).
  have := all_entriesP comm ha'; rewrite -(opS ha') => /(_ (i %/ dimB b) (j %/ dimB b.+1))%N.
  rewrite (nr_op cA ha') => /(_ hi1 hj1) h; have := all_entriesP h hb'; rewrite -(opS hb') => /(_ (i %% dimB b) (j %% dimB b.+1))%N.
  by rewrite (nr_op cB hb'); apply.
rewrite /S; under eq_bigr => m _ do rewrite phi_blk1 ?ltn_ord // phi_blk2 ?ltn_ord //.
under [X in _ + X]eq_bigr => m _ do rewrite phi_blk2 ?ltn_ord // phi_blk1 ?ltn_ord //.
rewrite (sum_divmod _ _ (fun m1 m2 => phi (at2 (opA a.+1) (i %/ dimB b) m1) * (i %% dimB b == m2)%N%:R *
     ((-1) ^+ a.+1 * (phi (at2 (opB b.+1) m2 (j %% dimB b.+1)) * (m1 == j %/ dimB b.+1)%N%:R)))).
rewrite (sum_divmod _ _ (fun m1 m2 => (-1) ^+ a * (phi (at2 (opB b.+1) (i %% dimB b) m2) * (i %/ dimB b == m1)%N%:R) *
     (phi (at2 (opA a.+1) m1 (j %/ dimB b.+1)) * (m2 == j %% dimB b.+1)%N%:R))).
set x := phi (at2 (opA a.+1) (i %/ dimB b) (j %/ dimB b.+1)) in cm *.
set y := phi (at2 (opB b.+1) (i %% dimB b) (j %% dimB b.+1)) in cm *.
have -> : \sum_(m1 < dimA a.+1) \sum_(m2 < dimB b) phi (at2 (opA a.+1) (i %/ dimB b) m1) * (i %% dimB b == m2)%N%:R *
     ((-1) ^+ a.+1 * (phi (at2 (opB b.+1) m2 (j %% dimB b.+1)) * (m1 == j %/ dimB b.+1 :> nat)%N%:R)) = (-1) ^+ a.+1 * (x * y).
  rewrite -(@sum_delta _ _ _ (fun m1 => (-1) ^+ a.+1 * (phi (at2 (opA a.+1) (i %/ dimB b) m1) * y)) hj1); apply: eq_bigr => m1 _.
  rewrite /y -(@sum_delta _ _ _ (fun m2 => phi (at2 (opB b.+1) m2 (j %% dimB b.+1))) hi2) mulr_sumr mulr_sumr mulr_suml.
  apply: eq_bigr => m2 _.
  have := mul_units (phi (at2 (opA a.+1) (i %/ dimB b) m1)) (phi (at2 (opB b.+1) m2 (j %% dimB b.+1))) 0 a.+1.
  move=> h; move: (h (i %% dimB b == m2)%N (m1 == j %/ dimB b.+1 :> nat)%N); rewrite !expr0 !mul1r => ->.
  by rewrite add0n eq_sym natrM !mulrA.
have -> : \sum_(m1 < dimA a) \sum_(m2 < dimB b.+1) (-1) ^+ a * (phi (at2 (opB b.+1) (i %% dimB b) m2) * (i %/ dimB b == m1)%N%:R) *
     (phi (at2 (opA a.+1) m1 (j %/ dimB b.+1)) * (m2 == j %% dimB b.+1 :> nat)%N%:R) = (-1) ^+ a * (y * x).
  rewrite -(@sum_delta _ _ _ (fun m1 => (-1) ^+ a * (y * phi (at2 (opA a.+1) m1 (j %/ dimB b.+1)))) hi1); apply: eq_bigr => m1 _.
  rewrite /y -(@sum_delta _ _ _ (fun m2 => phi (at2 (opB b.+1) (i %% dimB b) m2)) hj2) mulr_suml mulr_sumr mulr_suml.
  apply: eq_bigr => m2 _.
  have := mul_units (phi (at2 (opB b.+1) (i %% dimB b) m2)) (phi (at2 (opA a.+1) m1 (j %/ dimB b.+1))) a 0.
  move=> h; move: (h (i %/ dimB b == m1)%N (m2 == j %% dimB b.+1 :> nat)%N); rewrite !expr0 !mul1r => ->.
  rewrite addn0 (eq_sym (i %/ dimB b)%N) mulnC natrM !mulrA; congr (_ * _); rewrite -!mulrA; congr (_ * (_ * _)).
  exact: commr_nat.
by rewrite cm exprS mulN1r mulNr addNr.
Qed.

Definition sizes d := [seq (dimA p.1 * dimB p.2)%N | p <- pairs d].
Notation blocks := (blocks zero scal sgn A B).
Lemma size_sizes d : size (sizes d) = size (pairs d). Proof. exact: size_map. Qed.
Lemma size_pos d : (d <= na + nb)%N -> (0 < size (pairs d))%N.
Proof. by move=> h; rewrite size_pairs; move: h; case: (leqP na d); clear; lia. Qed.
Lemma op_block d : (0 < d <= na + nb)%N -> exists M, [/\ block (blocks d) = Some M, nr M = sumn (sizes d.-1), nc M = sumn (sizes d) &
  forall i j, (i < nr M)%N -> (j < nc M)%N -> at2 M i j =
    at2 (bk (nth (0, 0)%N (pairs d.-1) (locate (sizes d.-1) i).1) (nth (0, 0)%N (pairs d) (locate (sizes d) j).1))
      (locate (sizes d.-1) i).2 (locate (sizes d) j).2].
Proof.
move=> hd; have /andP [d0 dn] := hd.
have g := grid_blocks zero scal sgn A B d; have /andP [/eqP sg _] := g.
have [||||| M [e1 e2 e3 e4]] := @blockE _ zero (blocks d) (sizes d.-1) (sizes d).
- by rewrite size_sizes size_pos // (leq_trans (leq_pred _)).
- by rewrite size_sizes size_pos.
- by rewrite size_sizes.
- by move=> a; rewrite !size_sizes => ha; rewrite (grid_row g).
- move=> a b; rewrite !size_sizes => ha hb; rewrite get_blocks // !(nth_map (0, 0)%N) //.
  by apply: (@blk_shape d.-1); rewrite ?prednK ?mem_nth.
exists M; rewrite e2 e3; split=> // i j hi hj; rewrite e4 // get_blocks //.
  by have [] := locateP hi; rewrite size_sizes.
by have [] := locateP hj; rewrite size_sizes.
Qed.

Lemma tensorE : exists2 P, tensor_product zero scal sgn A B = Some P & size P = (na + nb)%N /\
  forall k, (k < na + nb)%N -> block (blocks k.+1) = Some (nth (zeros zero 0 0) P k).
Proof.
rewrite /tensor_product.
have h k : k \in iota 1 (na + nb) -> isSome (block (blocks k)).
  by rewrite mem_iota => hk; have [|M [-> _ _ _]] := @op_block k; first lia.
rewrite ifT; last by rewrite all_map; apply/allP => k /h.
have [e1 e2] : size (pmap id [seq block (blocks d) | d <- iota 1 (na + nb)]) = (na + nb)%N /\
    forall k, (k < na + nb)%N -> block (blocks (1 + k)) = Some (nth (zeros zero 0 0) (pmap id [seq block (blocks d) | d <- iota 1 (na + nb)]) k).
  elim: (na + nb)%N (1%N) h => [|n IH] m h //=.
  have := h m (mem_head _ _); case e: (block (blocks m)) => [M|] //= _.
  have [|s1 s2] := IH m.+1; first by move=> k hk; apply: h; rewrite /= in_cons hk orbT.
  by rewrite s1; split=> // [] [|k] hk; rewrite ?addn0 //= -s2 // addSnnS.
by exists (pmap id [seq block (blocks d) | d <- iota 1 (na + nb)]).
Qed.

Theorem tensor_complex : exists2 P, tensor_product zero scal sgn A B = Some P & size P = (na + nb)%N /\ is_complex phi P.
Proof.
have [P e [sP h]] := tensorE; exists P => //; split=> //; apply: is_complexI => k; rewrite sP => hk.
have [|M [m1 m2 m3 m4]] := @op_block k.+1; first by rewrite (ltnW hk).
have [|N [n1 n2 n3 n4]] := @op_block k.+2; first by [].
have eM : nth (zeros zero 0 0) P k = M by move: (h k (ltnW hk)); rewrite m1 => [] [].
have eN : nth (zeros zero 0 0) P k.+1 = N by move: (h k.+1 hk); rewrite n1 => [] [].
rewrite eM eN; split=> [|i j hi hj]; first by rewrite m3 n2.
have hi' := hi; have hj' := hj; rewrite m2 /= in hi'; rewrite n3 in hj'.
have [i1 i2] := locateP hi'; have [j1 j2] := locateP hj'.
rewrite !size_sizes in i1 j1; rewrite (nth_map (0, 0)%N) // in i2; rewrite (nth_map (0, 0)%N) // in j2.
set p := nth (0, 0)%N (pairs k) (locate (sizes k) i).1 in i2; set q := nth (0, 0)%N (pairs k.+2) (locate (sizes k.+2) j).1 in j2.
have pp : p \in pairs k by apply: mem_nth.
have qq : q \in pairs k.+2 by apply: mem_nth.
rewrite -[RHS](comp_blk pp qq i2 j2) (big_nth (0, 0)%N) big_mkord.
transitivity (\sum_(m < sumn (sizes k.+1)) phi (at2 (bk p (nth (0, 0)%N (pairs k.+1) (locate (sizes k.+1) m).1)) (locate (sizes k) i).2 (locate (sizes k.+1) m).2) *
   phi (at2 (bk (nth (0, 0)%N (pairs k.+1) (locate (sizes k.+1) m).1) q) (locate (sizes k.+1) m).2 (locate (sizes k.+2) j).2)).
  by rewrite m3; apply: eq_bigr => m _; rewrite m4 ?n4 ?m3 ?n2 //= ltn_ord.
rewrite (sum_locate _ (fun c m => phi (at2 (bk p (nth (0, 0)%N (pairs k.+1) c)) (locate (sizes k) i).2 m) *
   phi (at2 (bk (nth (0, 0)%N (pairs k.+1) c) q) m (locate (sizes k.+2) j).2))).
rewrite size_sizes; apply: eq_bigr => c _; rewrite /S (nth_map (0, 0)%N) //.
Qed.

(* where the entries are: sector (a, b) of the module of degree k comes after the sectors with a larger first degree *)
Definition offset (k a : nat) : nat := \sum_(a.+1 <= i < (minn na k).+1) dimA i * dimB (k - i).
Lemma locate_pos ds k r : (k < size ds)%N -> (r < nth 0 ds k)%N -> locate ds (sumn (take k ds) + r) = (k, r).
Proof.
elim: ds k => //= d ds IH [|k] hk hr /=; first by rewrite add0n hr.
by rewrite ltnNge -addnA leq_addr /= addKn IH.
Qed.
Lemma offsetE k a b : (a <= na)%N -> (b <= nb)%N -> (a + b = k)%N ->
  sumn (take (block_index na a b) (sizes k)) = offset k a /\ nth (0, 0)%N (pairs k) (block_index na a b) = (a, b) /\
  (block_index na a b < size (pairs k))%N.
Proof.
move=> ha hb <-; have hk : (block_index na a b < size (pairs (a + b)))%N.
  by rewrite size_pairs /block_index; move: ha hb; case: (leqP na (a + b)); clear; lia.
split; last by split=> //; rewrite nth_pairs // /block_index; congr pair; move: ha hb; case: (leqP na (a + b)); clear; lia.
rewrite -map_take -map_take take_rev size_iota drop_iota /offset.
rewrite -map_comp map_rev sumn_rev sumnE big_map /index_iota.
rewrite size_pairs in hk; set u := (_ + _)%N; set v := (_ - _)%N.
have [-> ->] : u = a.+1 /\ v = ((minn na (a + b)).+1 - a.+1)%N; last by [].
by rewrite {}/u {}/v /block_index in hk *; move: hk ha hb; case: (leqP na (a + b)); clear; lia.
Qed.
Lemma pos_lt k a b r : (a <= na)%N -> (b <= nb)%N -> (a + b = k)%N -> (r < dimA a * dimB b)%N ->
  (offset k a + r < sumn (sizes k))%N /\ locate (sizes k) (offset k a + r) = (block_index na a b, r).
Proof.
move=> ha hb hk hr; have [<- [e hs]] := offsetE ha hb hk.
have h : nth 0%N (sizes k) (block_index na a b) = (dimA a * dimB b)%N by rewrite (nth_map (0, 0)%N) // e.
split; last by apply: locate_pos; rewrite ?size_sizes // h.
rewrite -{2}(cat_take_drop (block_index na a b) (sizes k)) sumn_cat ltn_add2l.
by rewrite (drop_nth 0%N) ?size_sizes //= h (leq_trans hr) // leq_addr.
Qed.

(* the boundary operator acts on a (x) b as stated in the documentation *)
Theorem tensor_entry P k a b a' b' u v u' v' : tensor_product zero scal sgn A B = Some P -> (0 < k <= na + nb)%N ->
  (a <= na)%N -> (b <= nb)%N -> (a + b = k)%N -> (a' <= na)%N -> (b' <= nb)%N -> (a' + b' = k.-1)%N ->
  (u < dimA a)%N -> (v < dimB b)%N -> (u' < dimA a')%N -> (v' < dimB b')%N ->
  let M := nth (zeros zero 0 0) P k.-1 in
  [/\ nr M = sumn (sizes k.-1), nc M = sumn (sizes k), (offset k.-1 a' + (u' * dimB b' + v') < nr M)%N,
     (offset k a + (u * dimB b + v) < nc M)%N &
   phi (at2 M (offset k.-1 a' + (u' * dimB b' + v')) (offset k a + (u * dimB b + v))) =
   if (a == a'.+1) && (b == b') then phi (at2 (opA a) u' u) * (v' == v)%:R
   else if (a == a') && (b == b'.+1) then (-1) ^+ a * (phi (at2 (opB b) v' v) * (u' == u)%:R) else 0].
Proof.
move=> eP hk ha hb hab ha' hb' hab' hu hv hu' hv' /=.
have [P' e [sP h]] := tensorE; rewrite e in eP; case: eP => <-.
have [M [m1 m2 m3 m4]] := op_block hk; have hk1 : (k.-1.+1 = k)%N by case/andP: hk; case: (k).
have -> : nth (zeros zero 0 0) P' k.-1 = M.
  by have /andP [_ hk2] := hk; move: (h k.-1); rewrite hk1 m1 => /(_ hk2) [].
have lt m n x y : (x < m -> y < n -> x * n + y < m * n)%N by clear; nia.
have dv x y n : (y < n)%N -> ((x * n + y) %/ n = x)%N /\ ((x * n + y) %% n = y)%N.
  by move=> hy; rewrite divnMDl ?(leq_ltn_trans _ hy) // divn_small // addn0 modnMDl modn_small.
have hr := lt _ _ _ _ hu hv; have hr' := lt _ _ _ _ hu' hv'.
have [p1 l1] := pos_lt ha hb hab hr; have [p2 l2] := pos_lt ha' hb' hab' hr'.
have [_ [e1 _]] := offsetE ha hb hab; have [_ [e2 _]] := offsetE ha' hb' hab'.
split; rewrite ?m2 ?m3 //; rewrite m4 ?m2 ?m3 // l1 l2 /= e1 e2.
have [d1 d2] := dv u v _ hv; have [d3 d4] := dv u' v' _ hv'.
case: ifP => [/andP [/eqP ea /eqP eb] | n1].
  by subst a b; rewrite phi_blk1 // d3 d4 d1 d2.
case: ifP => [/andP [/eqP ea /eqP eb] | n2].
  by subst a b; rewrite phi_blk2 // d3 d4 d1 d2.
by apply: phi_blk0; rewrite xpair_eqE /= ?n1 ?n2.
Qed.

Hypotheses (ok0 : ok zero) (ok_sgn : forall x k, ok x -> ok (sgn x k)).
Lemma ok_blk d p q i j : p \in pairs d -> q \in pairs d.+1 -> (i < dimA p.1 * dimB p.2)%N -> (j < dimA q.1 * dimB q.2)%N ->
  ok (at2 (bk p q) i j).
Proof.
case: p q => [a b] [a' b']; rewrite !mem_pairs => /and3P [ha hb _] /and3P [ha' hb' _] /= hi hj.
have nb0 : (0 < dimB b)%N by move: hi; case: (dimB b) => //; rewrite muln0.
have nb1 : (0 < dimB b')%N by move: hj; case: (dimB b') => //; rewrite muln0.
case e1: ((a' == a.+1) && (b' == b)).
  case/andP: e1 => /eqP e1 /eqP e2; subst a' b'; rewrite blk1E /kronI /at2 -/(@at2 T); apply: ok_scal.
  by have := all_entriesP oA ha'; rewrite -(opS ha'); apply; rewrite ?(nr_op cA) // ltn_divLR.
case e2: ((a' == a) && (b' == b.+1)).
  case/andP: e2 => /eqP e2 /eqP e3; subst a' b'; rewrite blk2E /signed /Ikron /at2 -/(@at2 T) (nr_op cB hb') -/(dimB b.+1).
  apply/ok_sgn/ok_scal; have := all_entriesP oB hb'; rewrite -(opS hb'); apply; rewrite ?(nr_op cB) // ltn_mod //.
by rewrite /blk /= e1 e2.
Qed.

Lemma all_entriesI P c : (forall k, (k < size c)%N -> entries P (nth (zeros zero 0 0) c k)) -> all_entries P c.
Proof. by elim: c => //= M c IH h; split; [exact: (h 0%N) | apply: IH => k hk; apply: (h k.+1)]. Qed.

Theorem tensor_ok P : tensor_product zero scal sgn A B = Some P -> all_entries ok P.
Proof.
have [P' e [sP h]] := tensorE; rewrite e => [] [<-] {P}; apply: all_entriesI => k; rewrite sP => hk.
have [|M [m1 m2 m3 m4]] := @op_block k.+1; first by [].
have -> : nth (zeros zero 0 0) P' k = M by move: (h k hk); rewrite m1 => [] [].
move=> i j hi hj; rewrite m4 // ; rewrite m2 in hi; rewrite m3 in hj.
have [i1 i2] := locateP hi; have [j1 j2] := locateP hj.
rewrite !size_sizes in i1 j1; rewrite (nth_map (0, 0)%N) // in i2; rewrite (nth_map (0, 0)%N) // in j2.
by apply: (@ok_blk k); rewrite ?mem_nth.
Qed.
End Compose.

(* transposing *)
Section Dual.
Variables (T : Type) (tr : T -> T) (R : ringType) (phi : T -> R) (psi : R -> R) (ok : T -> Prop).
Hypotheses (phi_tr : forall x, ok x -> phi (tr x) = psi (phi x)) (psi0 : psi 0 = 0) (psiD : forall x y, psi (x + y) = psi x + psi y).
Hypothesis psiM : forall x y, psi (x * y) = psi y * psi x.

Lemma psi_sum n (f : 'I_n -> R) : \sum_(m < n) psi (f m) = psi (\sum_(m < n) f m).
Proof. by apply: (big_ind2 (fun x y => x = psi y)) => // x1 x2 y1 y2 -> ->; rewrite psiD. Qed.

Lemma dual_composes M N : entries ok M -> entries ok N -> composes phi M N ->
  composes phi (Arr (nc N) (nr N) (fun i j => tr (at2 N j i))) (Arr (nc M) (nr M) (fun i j => tr (at2 M j i))).
Proof.
move=> oM oN [e h]; split=> [|i j hi hj] /=; first by rewrite e.
rewrite /= in hi hj; have := psi0; rewrite -{1}(h j i hj hi) -psi_sum => h0; rewrite -[RHS]h0 -e; apply: eq_bigr => m _.
by rewrite !phi_tr ?psiM //; [apply: oM | apply: oN; rewrite -?e].
Qed.

Lemma complex_rcons c M : is_complex phi (rcons c M) <-> is_complex phi c /\ (forall z, (0 < size c)%N -> composes phi (last z c) M).
Proof.
elim: c => [|N c IH]; first by split.
case: c IH => [|N' c] IH; first by split=> [[h _]|[_ h]]; split=> //; apply: (h M).
rewrite rcons_cons; split.
  move=> [h1 /IH [h2 h3]]; split; first by split.
  by move=> z _; rewrite /= in h3 *; apply: (h3 z).
by move=> [[h1 h2] h3]; split=> //; apply/IH; split=> // z _; apply: (h3 z).
Qed.

Theorem dual_complex c : all_entries ok c -> is_complex phi c -> is_complex phi (dual tr c).
Proof.
elim: c => //= M [|N c] IH /=; first by [].
move=> [oM oNc] [h1 h2]; rewrite /dual rev_cons map_rcons; apply/complex_rcons; split; first exact: IH.
by move=> z _; rewrite rev_cons map_rcons last_rcons; apply: dual_composes => //; case: oNc.
Qed.
Lemma dual_entries P c : all_entries (fun x => P (tr x)) c -> all_entries P (dual tr c).
Proof.
have cat (c1 c2 : seq (arr T)) : all_entries P c1 -> all_entries P c2 -> all_entries P (c1 ++ c2).
  by elim: c1 => //= M c1 IH [h1 h2] h3; split=> //; apply: IH.
elim: c => //= M c IH [h1 h2]; rewrite /dual rev_cons map_rcons -cats1; apply: cat; first exact: IH.
by split=> // i j hi hj; apply: h1.
Qed.
End Dual.

Section Validate.
Variables (T : Type) (R : ringType) (phi : T -> R) (ok : T -> Prop) (mulsum : seq (T * T) -> T) (tobool : T -> bool).
Hypothesis valid0 : forall ps, (forall p, List.In p ps -> ok p.1 /\ ok p.2) ->
  tobool (mulsum ps) = (\sum_(p <- ps) phi p.1 * phi p.2 != 0).

Theorem validateP c : all_entries ok c -> validate mulsum tobool c <-> is_complex phi c.
Proof.
elim: c => //= M c IH [oM oc]; rewrite /validate /=; case: c IH oc => [|N c] IH oc; first by split.
rewrite [all _ _]/= -/(validate mulsum tobool (N :: c)).
have [oN _] := oc; have {IH} IH := IH oc.
have e : reflect (composes phi M N) ((nc M == nr N) && all (fun i => all (fun j =>
    ~~ tobool (mulsum [seq (at2 M i m, at2 N m j) | m <- iota 0 (nc M)])) (iota 0 (nc N))) (iota 0 (nr M))).
  have val i j : nc M = nr N -> (i < nr M)%N -> (j < nc N)%N ->
      tobool (mulsum [seq (at2 M i m, at2 N m j) | m <- iota 0 (nc M)]) = (\sum_(m < nc M) phi (at2 M i m) * phi (at2 N m j) != 0).
    move=> en hi hj; rewrite valid0 ?big_map ?big_mkord -?(big_mkord xpredT (fun m => phi (at2 M i m) * phi (at2 N m j))) /index_iota ?subn0 //.
    move=> p hp; have [m hm ->] : exists2 m, m \in iota 0 (nc M) & p = (at2 M i m, at2 N m j).
      elim: (iota _ _) hp => //= m ms IHm [<- | /IHm [m' h1 h2]]; first by exists m; rewrite ?mem_head.
      by exists m'; rewrite // in_cons h1 orbT.
    by rewrite mem_iota in hm; split; [apply: oM | apply: oN; rewrite -?en].
  apply: (iffP andP) => [[/eqP en /allP h] | [en h]]; split=> //; try exact/eqP.
    move=> i j hi hj; have hi' : i \in iota 0 (nr M) by rewrite mem_iota.
    have /allP /(_ j) := h i hi'; rewrite mem_iota hj => /(_ isT).
    by rewrite val // negbK => /eqP.
  apply/allP => i; rewrite mem_iota => hi; apply/allP => j; rewrite mem_iota => hj; by rewrite val // negbK h.
by split=> [/andP [/e h1 /IH h2] | [h1 h2]] //; apply/andP; split; [apply/e | apply/IH].
Qed.
End Validate.
