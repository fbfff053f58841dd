(* Groups from multiplication tables and from matrices: model of qldpc/abstract.py:281-349 (Group.from_table,
   Group.from_generating_mats), 1199-1233 (QuaternionGroup) and 1284-1345 (SpecialLinearGroup). *)
From mathcomp Require Import all_ssreflect all_algebra zify.
From Verif Require Import LinAlg Classical PermGroup.
Set Implicit Arguments.
Unset Strict Implicit.
Unset Printing Implicit Defensive.
Import GRing.Theory.
Local Open Scope ring_scope.

(* ============================================================================== model *)
(* the entry of a table *)
Definition tb (t : seq (seq nat)) (a b : nat) : nat := nth 0%N (nth [::] t a) b.

(* abstract.py:283-290: the generators of Group.from_table are the rows of the table.  SymPy refuses rows that are not
   permutations (None).  Simplification: the group generated by the rows is not enumerated; its order of enumeration is
   SymPy's, and theorem C58_from_table shows that for the table of a group its members are the rows *)
Definition from_table (t : seq (seq nat)) : option group :=
  if all (valid (size t)) t then Some t else None.
(* abstract.py:292-295: the lift of from_table; dictionary from rows to indices (with equal rows the last one wins) *)
Definition table_index (t : seq (seq nat)) (p : perm) : nat := (size t - (index p (rev t)).+1)%N.
Definition table_lift (R : ringType) (t : seq (seq nat)) (lift : nat -> mat R) (p : perm) : mat R := lift (table_index t p).

(* Python dictionaries: d.get(k) and d[k] = v *)
Section Dict.
Variables (K : eqType) (V : Type).
Fixpoint aget (d : seq (K * V)) (k : K) : option V := if d is (h, w) :: d' then if h == k then Some w else aget d' k else None.
Fixpoint aset (d : seq (K * V)) (k : K) (v : V) : seq (K * V) :=
  if d is (h, w) :: d' then if h == k then (h, v) :: d' else (h, w) :: aset d' k v else [:: (k, v)].
Definition asets (d e : seq (K * V)) : seq (K * V) := foldl (fun d p => aset d p.1 p.2) d e.
End Dict.

(* abstract.py:298-349: Group.from_generating_mats, for matrices T with product mul.  External: hash(bytes) is injective *)
Section GenMats.
Variables (T : eqType) (mul : T -> T -> T) (x0 : T).
Record gmstate := GM { gm_hash : seq (T * nat); gm_new : seq (nat * T); gm_table : seq (nat * nat * nat) }.
(* abstract.py:316-325: _account_for_product; index_to_member is idx *)
Definition account (idx : seq (nat * T)) (s : gmstate) (aa bb : nat) : gmstate :=
  let cc := mul (odflt x0 (aget idx aa)) (odflt x0 (aget idx bb)) in
  if aget (gm_hash s) cc is Some c then GM (gm_hash s) (gm_new s) (aset (gm_table s) (aa, bb) c)
  else let c := size (gm_hash s) in
       GM (aset (gm_hash s) cc c) (aset (gm_new s) c cc) (aset (gm_table s) (aa, bb) c).
(* abstract.py:329-337: the loop; None if the fuel runs out (the loop does not terminate for infinite groups) *)
Fixpoint gm_loop (fuel : nat) (idx add : seq (nat * T)) (hash : seq (T * nat)) (tab : seq (nat * nat * nat)) :=
  if add is [::] then Some (idx, tab) else
  if fuel is f.+1 then
    let s := foldl (fun s ab => account idx (account idx s ab.1 ab.2) ab.2 ab.1) (GM hash [::] tab)
      [seq (a.1, b.1) | a <- add, b <- idx] in
    gm_loop f (asets idx (gm_new s)) (gm_new s) (gm_hash s) (gm_table s)
  else None.
(* abstract.py:339-349: the table, the generators and the lift *)
Definition gm_result (idx : seq (nat * T)) (tab : seq (nat * nat * nat)) (ngens : nat) :=
  let m := size idx in
  let table := mkseq (fun a => mkseq (fun b => odflt 0%N (aget tab (a, b))) m) m in
  let gens := [seq nth [::] table r | r <- iota 0 ngens] in
  if all (valid m) gens then Some (gens, table, idx) else None.
Definition gen_mats (fuel : nat) (mats : seq T) :=
  let idx := zip (iota 0 (size mats)) mats in
  let hash := asets [::] [seq (p.2, p.1) | p <- idx] in
  if gm_loop fuel idx idx hash [::] is Some (idx', tab) then gm_result idx' tab (size mats) else None.
(* lift: index_to_member[permutation_to_index[...]] *)
Definition gm_lift (table : seq (seq nat)) (idx : seq (nat * T)) (p : perm) : T :=
  odflt x0 (aget idx (table_index table p)).
End GenMats.

(* abstract.py:1199-1233: QuaternionGroup *)
Definition quat_table : seq (seq nat) :=
  [:: [:: 0; 1; 2; 3; 4; 5; 6; 7]; [:: 1; 4; 3; 6; 5; 0; 7; 2]; [:: 2; 7; 4; 1; 6; 3; 0; 5];
      [:: 3; 2; 5; 4; 7; 6; 1; 0]; [:: 4; 5; 6; 7; 0; 1; 2; 3]; [:: 5; 0; 7; 2; 1; 4; 3; 6];
      [:: 6; 3; 0; 5; 2; 7; 4; 1]; [:: 7; 6; 1; 0; 3; 2; 5; 4]]%N.
Definition quat_lift (k : nat) : mat [ringType of 'F_3] :=
  let sign : 'F_3 := if (k < 4)%N then 1 else -1 in
  let m : mat [ringType of 'F_3] := match (k %% 4)%N with
    | 0%N => [:: [:: 1; 0; 0; 0]; [:: 0; 1; 0; 0]; [:: 0; 0; 1; 0]; [:: 0; 0; 0; 1]]
    | 1%N => [:: [:: 0; -1; 0; 0]; [:: 1; 0; 0; 0]; [:: 0; 0; 0; 1]; [:: 0; 0; -1; 0]]
    | 2%N => [:: [:: 0; 0; -1; 0]; [:: 0; 0; 0; -1]; [:: 1; 0; 0; 0]; [:: 0; 1; 0; 0]]
    | _ => [:: [:: 0; 0; 0; 1]; [:: 0; 0; -1; 0]; [:: 0; 1; 0; 0]; [:: -1; 0; 0; 0]] end in
  mscale sign (trl 4 m).

(* abstract.py:1284-1333: the linear representation of SpecialLinearGroup; T is the list of nonzero vectors in the order of
   itertools.product *)
Section SL.
Variable F : fieldType.
Definition sl_space (el : seq F) (d : nat) : seq (vec F) := behead (product el d).
Definition sl_perm (T : seq (vec F)) (A : mat F) : perm := [seq index (mulmv A v) T | v <- T].
Definition unit_vec (d e : nat) : vec F := mkseq (fun i => (i == e)%:R) d.
Definition sl_lift (T : seq (vec F)) (d : nat) (p : perm) : mat F :=
  trl d [seq nth [::] T (nth 0%N p (index (unit_vec d e) T)) | e <- iota 0 d].
(* abstract.py:1345-1362: get_generating_mats (primitive element pe, used if the field has more than
   three elements) *)
Definition sl_gens (d q : nat) (pe : F) : seq (mat F) :=
  [:: mkmat d d (fun i j => if (q <= 3)%N then (i == j)%:R + ((i == 0%N) && (j == 1%N))%:R
        else if (i == 0%N) && (j == 0%N) then pe else if (i == 1%N) && (j == 1%N) then pe^-1 else (i == j)%:R);
      mkmat d d (fun i j => if (i == 0%N) && (j == d.-1) then 1 else
        if ((3 < q)%N && (i == 0%N) && (j == 0%N)) then -1 else - (i == j.+1)%:R)].
End SL.

(* ====================================================================== specification *)
(* the multiplication table of a group *)
Definition is_table (t : seq (seq nat)) : Prop :=
  let n := size t in
  [/\ forall a, (a < n)%N -> size (nth [::] t a) = n, forall a b, (a < n)%N -> (b < n)%N -> (tb t a b < n)%N,
      forall a b c, (a < n)%N -> (b < n)%N -> (c < n)%N -> tb t a (tb t b c) = tb t (tb t a b) c
    & exists2 e, (e < n)%N & forall a, (a < n)%N -> [/\ tb t e a = a, tb t a e = a & exists2 b, (b < n)%N & tb t b a = e]].

(* ============================================================================= proofs *)
Section Table.
Variable t : seq (seq nat).
Hypothesis tt : is_table t.
Notation n := (size t).
Notation row a := (nth [::] t a).

Lemma tab_cancel a b c : (a < n)%N -> (b < n)%N -> (c < n)%N -> tb t a b = tb t a c -> b = c.
Proof.
case: tt => _ hlt hA [e he hi] ha hb hc eq; have [_ _ [a' ha' ea]] := hi a ha.
have := congr1 (tb t a') eq; rewrite !hA // ea; by have [-> _ _] := hi b hb; have [-> _ _] := hi c hc.
Qed.

Lemma row_valid a : (a < n)%N -> valid n (row a).
Proof.
case: (tt) => hs hlt hA hI ha; apply: validP; first exact: hs.
  by move=> i hi; apply: hlt.
by move=> i j hi hj /(tab_cancel ha hi hj).
Qed.

Lemma row_mul a b : (a < n)%N -> (b < n)%N -> pmul (row a) (row b) = row (tb t b a).
Proof.
move=> ha hb; case: (tt) => hs hlt hA hI; have hba := hlt b a hb ha.
apply: (@perm_ext n); rewrite ?valid_pmul ?row_valid // => i hi.
by rewrite (@nth_pmul n) ?row_valid //; apply: hA.
Qed.

Lemma row_inj a b : (a < n)%N -> (b < n)%N -> row a = row b -> a = b.
Proof.
case: (tt) => _ _ _ [e he hi] ha hb eq; have [_ e1 _] := hi a ha; have [_ e2 _] := hi b hb.
by rewrite -e1 -e2 /tb eq.
Qed.

Lemma rows_uniq : uniq t. Proof. by apply/(uniqP [::]) => i j; rewrite !inE; apply: row_inj. Qed.

Lemma row_id e : (e < n)%N -> (forall a, (a < n)%N -> tb t e a = a) -> row e = pid n.
Proof. by move=> he h; apply: (@perm_ext n); rewrite ?row_valid ?valid_pid // => i hi; rewrite nth_pid //; apply: h. Qed.

Lemma from_table_ok : from_table t = Some t /\ grp_ok n t.
Proof.
have va : all (valid n) t by apply/(all_nthP [::]) => i hi; apply: row_valid.
split; first by rewrite /from_table va.
case: (tt) => hs hlt hA [e he hi].
have one : pid n = row e by rewrite row_id // => a /hi [].
split=> //; first exact: rows_uniq.
- by rewrite one mem_nth.
- by move=> p q /(nthP [::]) [a ha <-] /(nthP [::]) [b hb <-]; rewrite row_mul // mem_nth // hlt.
move=> p /(nthP [::]) [a ha <-]; have [_ _ [b hb eb]] := hi a ha.
have h : pmul (row a) (row b) = pid n by rewrite row_mul // eb one.
have -> : pinv (row a) = row b; last exact: mem_nth.
have := congr1 (pmul (pinv (row a))) h; rewrite (@pmulKp n) ?row_valid // => ->.
by rewrite (@pmulp1 n) // valid_pinv // row_valid.
Qed.

Lemma table_index_row a : (a < n)%N -> table_index t (row a) = a.
Proof.
move=> ha; rewrite /table_index; have -> : row a = nth [::] (rev t) (n - a.+1).
  rewrite nth_rev; last by move: ha; clear; lia.
  congr (nth _ _ _); move: ha; clear; lia.
have h : (n - a.+1 < size (rev t))%N by rewrite size_rev; move: ha; clear; lia.
rewrite index_uniq ?rev_uniq ?rows_uniq //; move: ha; clear; lia.
Qed.

(* products are taken in the opposite order *)
Lemma from_table_index p q : p \in t -> q \in t -> table_index t (pmul p q) = tb t (table_index t q) (table_index t p).
Proof.
move=> /(nthP [::]) [a ha <-] /(nthP [::]) [b hb <-]; rewrite row_mul // !table_index_row //.
by case: tt => _ hlt _ _; apply: hlt.
Qed.
End Table.

(* the table of a group *)
Lemma group_table n (G : group) : grp_ok n G -> is_table (table G).
Proof.
move=> gG; have v p : p \in G -> valid n p by exact: (g_valid gG).
have sT : size (table G) = size G by rewrite size_map.
have E a b : (a < size G)%N -> (b < size G)%N -> tb (table G) a b = gindex G (pmul (nth [::] G a) (nth [::] G b)).
  by move=> ha hb; rewrite /tb (nth_map [::]) // (nth_map [::]).
have hlt a b : (a < size G)%N -> (b < size G)%N -> (tb (table G) a b < size G)%N.
  by move=> ha hb; rewrite E // gindex_lt // (g_mul gG) // mem_nth.
rewrite /is_table sT; split=> [a ha | a b | a b c ha hb hc |].
- by rewrite (nth_map [::]) // size_map.
- exact: hlt.
- rewrite [tb _ b c]E // [tb _ a b]E // !E ?gindex_lt ?(g_mul gG) ?mem_nth //.
  by rewrite !gindexK ?(g_mul gG) ?mem_nth // (@pmulA n) ?v ?mem_nth.
have h1 := gindex_lt (g_one gG); exists (gindex G (pid n)) => // a ha.
have aG : nth [::] G a \in G := mem_nth _ ha.
rewrite !E // (gindexK (g_one gG)) (@pmul1p n) ?v // (@pmulp1 n) ?v // (gindex_nth gG) //; split=> //.
have iG := g_inv gG aG; exists (gindex G (pinv (nth [::] G a))); first exact: gindex_lt.
by rewrite E ?gindex_lt // gindexK // (@pmulVp n) ?v.
Qed.

(* ---------------------------------------------------------------- special linear groups *)
Section SLproofs.
Variables (F : fieldType) (d : nat) (T : seq (vec F)).
Hypotheses (uT : uniq T) (hT : forall v, (v \in T) = (size v == d) && (v != nseq d 0)).
Notation N := (size T).
Definition square (A : mat F) : bool := (size A == d) && wf d A && (mx d d A \in unitmx).

Lemma sq_mul A v : square A -> v \in T -> mulmv A v \in T.
Proof.
case/andP => /andP [/eqP sA wA] uA; rewrite !hT size_mulmv sA => /andP [/eqP sv nz]; rewrite eqxx /=.
apply: contraNneq nz => e; have := cv_mulmv sA wA sv; rewrite e => h.
have z : mx d d A *m cv d v = 0 by rewrite -h; apply/colP => i; rewrite !mxE nth_nseq; case: ifP.
have := congr1 (mulmx (invmx (mx d d A))) z; rewrite mulmxA mulVmx // mul1mx mulmx0 => /colP h0.
apply/eqP; apply: (@eq_from_nth _ 0); rewrite ?size_nseq // => i; rewrite sv => hi; have := h0 (Ordinal hi).
by rewrite !mxE /= nth_nseq hi.
Qed.

Lemma sq_inj A v w : square A -> v \in T -> w \in T -> mulmv A v = mulmv A w -> v = w.
Proof.
case/andP => /andP [/eqP sA wA] uA; rewrite !hT => /andP [/eqP sv _] /andP [/eqP sw _] e.
have := congr1 (cv d) e; rewrite (cv_mulmv sA wA sv) (cv_mulmv sA wA sw) => /(congr1 (mulmx (invmx (mx d d A)))).
rewrite !mulmxA mulVmx // !mul1mx => /colP h.
apply: (@eq_from_nth _ 0); rewrite ?sv ?sw // => i hi; by have := h (Ordinal hi); rewrite !mxE.
Qed.

Lemma sl_nth A i : (i < N)%N -> nth 0%N (sl_perm T A) i = index (mulmv A (nth [::] T i)) T.
Proof. by move=> hi; rewrite (nth_map [::]). Qed.

Lemma sl_valid A : square A -> valid N (sl_perm T A).
Proof.
move=> sq; apply: validP; first by rewrite size_map.
  by move=> i hi; rewrite sl_nth // index_mem sq_mul // mem_nth.
move=> i j hi hj; rewrite !sl_nth // => e; apply/eqP; rewrite -(nth_uniq [::] hi hj uT); apply/eqP.
have mi := mem_nth [::] hi; have mj := mem_nth [::] hj.
by apply: (sq_inj sq mi mj); rewrite -(nth_index [::] (sq_mul sq mi)) e nth_index // sq_mul.
Qed.

Lemma sq_closed A B : square A -> square B -> square (mull d A B).
Proof.
case/andP => /andP [/eqP sA wA] uA /andP [/andP [/eqP sB wB] uB]; rewrite /square size_mull sA eqxx wf_mull /=.
by rewrite (mx_mull _ sA wA sB) unitmx_mul uA.
Qed.

Lemma mulmvM A B v : square A -> square B -> size v = d -> mulmv (mull d B A) v = mulmv B (mulmv A v).
Proof.
case/andP => /andP [/eqP sA wA] uA /andP [/andP [/eqP sB wB] uB] sv.
have sAv : size (mulmv A v) = d by rewrite size_mulmv.
have : cv d (mulmv (mull d B A) v) = cv d (mulmv B (mulmv A v)).
  rewrite (cv_mulmv _ (wf_mull _ _ _) sv) ?size_mull // (mx_mull _ sB wB sA) (cv_mulmv sB wB sAv) (cv_mulmv sA wA sv).
  by rewrite mulmxA.
move=> /colP h; apply: (@eq_from_nth _ 0); rewrite !size_mulmv ?size_mull // sB => i hi.
by have := h (Ordinal hi); rewrite !mxE.
Qed.

Lemma sl_perm_mul A B : square A -> square B -> pmul (sl_perm T A) (sl_perm T B) = sl_perm T (mull d B A).
Proof.
move=> qA qB; have qBA := sq_closed qB qA; apply: (@perm_ext N); rewrite ?valid_pmul ?sl_valid // => i hi.
have mi := mem_nth [::] hi; rewrite (@nth_pmul N) ?sl_valid // !sl_nth ?valid_nth ?sl_valid //; last first.
  by rewrite index_mem sq_mul.
rewrite nth_index ?sq_mul // -mulmvM //; by move: mi; rewrite hT => /andP [/eqP].
Qed.

Lemma unit_vecT e : (e < d)%N -> unit_vec F d e \in T.
Proof.
move=> he; rewrite hT size_mkseq eqxx /=; apply/eqP => /(congr1 (fun v => nth 0 v e)).
by rewrite nth_mkseq // eqxx nth_nseq he => /eqP; rewrite oner_eq0.
Qed.

Lemma sl_lift_perm A : square A -> sl_lift T d (sl_perm T A) = A.
Proof.
move=> qA; have /andP [/andP [/eqP sA wA] uA] := qA; rewrite /sl_lift; set B := map _ _.
have sB : size B = d by rewrite size_map size_iota.
apply: (@mat_ext _ d d); rewrite ?size_trl ?wf_trl //; first by rewrite -{1}sB wf_trl.
move=> i j hi hj; rewrite ent_trl ?sB //.
rewrite /ent (nth_map 0%N) ?size_iota // nth_iota // add0n; have ue := unit_vecT hj.
rewrite sl_nth ?index_mem // !nth_index ?sq_mul //.
rewrite (nth_map [::]) ?sA // (dotE (wf_nth wA (_ : (i < size A)%N))) ?sA ?size_mkseq //.
rewrite (bigD1 (Ordinal hj)) //= nth_mkseq // eqxx mulr1 big1 ?addr0 // => k nk; rewrite nth_mkseq //.
by case: eqP => [e | _]; [case/eqP: nk; apply: val_inj | rewrite mulr0].
Qed.
End SLproofs.

(* -------------------------------------------------------------------- generating matrices *)
Section DictProofs.
Variables (K : eqType) (V : Type).
Implicit Types d e : seq (K * V).
Lemma aget_aset d k v h : aget (aset d k v) h = if k == h then Some v else aget d h.
Proof.
elim: d => [|[k' w] d IH] //=; case: (k' =P k) => [-> | ne] /=; first by case: ifP.
by rewrite IH; case: (k' =P h) => // e; case: (k =P h) => // e'; case: ne; rewrite e e'.
Qed.
Lemma aset_new d k v : aget d k = None -> aset d k v = rcons d (k, v).
Proof. by elim: d => [|[k' w] d IH] //=; case: ifP => // _ /IH ->. Qed.
Lemma aget_cat d e k : aget (d ++ e) k = if aget d k is Some v then Some v else aget e k.
Proof. by elim: d => [|[h w] d IH] //=; case: ifP. Qed.
Lemma aget_none d k : k \notin [seq p.1 | p <- d] -> aget d k = None.
Proof. by elim: d => [|[h w] d IH] //=; rewrite in_cons negb_or eq_sym => /andP [/negbTE -> /IH]. Qed.
Lemma asets_new d e : uniq [seq p.1 | p <- d ++ e] -> asets d e = d ++ e.
Proof.
elim: e d => [|[k v] e IH] d /=; first by rewrite cats0.
move=> u; rewrite aset_new; last first.
  apply: aget_none; apply: contraTN u => h; rewrite map_cat cat_uniq /= h /=; by rewrite andbF.
by rewrite IH -cats1 -catA.
Qed.
End DictProofs.

Lemma mem_pairs1 (T1 T2 : eqType) (s : seq (nat * T1)) (t : seq (nat * T2)) a b :
  (a, b) \in [seq (p.1, q.1) | p <- s, q <- t] = (a \in [seq p.1 | p <- s]) && (b \in [seq p.1 | p <- t]).
Proof.
apply/allpairsP/andP => [[[p q] [hp hq [-> ->]]] | [/mapP [p hp ->] /mapP [q hq ->]]]; last by exists (p, q).
by split; apply: map_f.
Qed.

Section GMProofs.
Variables (T : eqType) (mul : T -> T -> T) (x0 : T) (P : T -> Prop).
Hypothesis Pmul : forall x y, P x -> P y -> P (mul x y).
Implicit Types (ms ns : seq T).

Definition enum k ms : seq (nat * T) := zip (iota k (size ms)) ms.
Definition swap ms : seq (T * nat) := [seq (p.2, p.1) | p <- enum 0 ms].

Lemma aget_enum k ms i : aget (enum k ms) (k + i)%N = if (i < size ms)%N then Some (nth x0 ms i) else None.
Proof.
elim: ms k i => [|x ms IH] k i //=; case: i => [|i]; first by rewrite addn0 eqxx.
have -> : (k == k + i.+1)%N = false by apply/eqP; lia.
by rewrite addnS -addSn -/(enum k.+1 ms) IH.
Qed.
Lemma keys_enum k ms : [seq p.1 | p <- enum k ms] = iota k (size ms).
Proof. by apply: unzip1_zip; rewrite size_iota. Qed.
Lemma enum_cat k ms ns : enum k (ms ++ ns) = enum k ms ++ enum (k + size ms) ns.
Proof. by rewrite /enum size_cat iotaD zip_cat ?size_iota. Qed.
Lemma keys_swap ms : [seq p.1 | p <- swap ms] = ms.
Proof. by rewrite -map_comp; apply: unzip2_zip; rewrite size_iota. Qed.
Lemma size_swap ms : size (swap ms) = size ms.
Proof. by rewrite size_map size_zip size_iota minnn. Qed.
Lemma swap_cat ms ns : swap (ms ++ ns) = swap ms ++ [seq (p.2, p.1) | p <- enum (size ms) ns].
Proof. by rewrite /swap enum_cat map_cat add0n. Qed.

Lemma aget_swapk k ms x : uniq ms ->
  aget [seq (p.2, p.1) | p <- enum k ms] x = if x \in ms then Some (k + index x ms)%N else None.
Proof.
elim: ms k => [|y ms IH] k //= /andP [ny u]; rewrite in_cons eq_sym -/(enum k.+1 ms) IH //.
by case: eqP => [-> | _] /=; rewrite ?addn0 // addSnnS.
Qed.
Lemma aget_swap ms x : uniq ms -> aget (swap ms) x = if x \in ms then Some (index x ms) else None.
Proof. by move=> u; rewrite /swap aget_swapk. Qed.

(* the table holds products *)
Definition tab_ok ms ns (tab : seq (nat * nat * nat)) : Prop :=
  forall a b c, aget tab (a, b) = Some c ->
    [/\ (a < size ms)%N, (b < size ms)%N, (c < size (ms ++ ns))%N & nth x0 (ms ++ ns) c = mul (nth x0 ms a) (nth x0 ms b)].
Definition covers (tab : seq (nat * nat * nat)) ab : bool := aget tab ab != None :> option nat.

Definition ginv ms (s : gmstate T) ns : Prop :=
  [/\ gm_hash s = swap (ms ++ ns), gm_new s = enum (size ms) ns, uniq (ms ++ ns), forall x, x \in ms ++ ns -> P x
    & tab_ok ms ns (gm_table s)].

Lemma tab_ok_set ms ns tab a b c : tab_ok ms ns tab -> (a < size ms)%N -> (b < size ms)%N -> (c < size (ms ++ ns))%N ->
  nth x0 (ms ++ ns) c = mul (nth x0 ms a) (nth x0 ms b) -> tab_ok ms ns (aset tab (a, b) c).
Proof. by move=> h ha hb hc e a' b' c'; rewrite aget_aset; case: eqP => [[<- <-] [<-] | _] //; apply: h. Qed.
Lemma covers_set tab ab c ab' : covers (aset tab ab c) ab' = (ab == ab') || covers tab ab'.
Proof. by rewrite /covers aget_aset; case: (ab == ab'). Qed.

Lemma account_inv ms s ns a b : ginv ms s ns -> (a < size ms)%N -> (b < size ms)%N ->
  exists ns', ginv ms (account mul x0 (enum 0 ms) s a b) ns' /\
    forall ab, covers (gm_table (account mul x0 (enum 0 ms) s a b)) ab = ((a, b) == ab) || covers (gm_table s) ab.
Proof.
move=> [h1 h2 h3 h4 h5] ha hb; rewrite /account.
have := aget_enum 0 ms a; have := aget_enum 0 ms b; rewrite !add0n ha hb => -> -> /=.
set cc := mul _ _; rewrite h1 aget_swap //; case: ifP => hc.
  exists ns; split; last by move=> ab; rewrite covers_set.
  by split=> //=; apply: tab_ok_set => //; rewrite ?index_mem // nth_index.
have pc : P cc by apply: Pmul; apply: h4; rewrite mem_cat mem_nth.
exists (rcons ns cc); split; last by move=> ab /=; rewrite covers_set.
have ncc : cc \notin ms ++ ns by rewrite hc.
rewrite size_swap -cats1; split=> /=.
- by rewrite aset_new ?aget_swap // ?hc // catA [in RHS]swap_cat -cats1.
- rewrite h2 aset_new.
    by rewrite enum_cat size_cat -cats1.
  by apply: aget_none; rewrite keys_enum mem_iota size_cat ltnn andbF.
- by rewrite catA cats1 rcons_uniq ncc.
- by move=> x; rewrite catA cats1 mem_rcons in_cons => /orP [/eqP -> | /h4].
apply: tab_ok_set => //.
- by move=> a' b' c' /h5 [r1 r2 r3 r4]; rewrite catA cats1 size_rcons nth_rcons r3; split=> //; apply: ltnW.
- by rewrite catA cats1 size_rcons.
by rewrite catA cats1 nth_rcons ltnn eqxx.
Qed.

Lemma fold_inv ms s ns ps : ginv ms s ns -> all (fun ab => (ab.1 < size ms)%N && (ab.2 < size ms)%N) ps ->
  let s' := foldl (fun s ab => account mul x0 (enum 0 ms) (account mul x0 (enum 0 ms) s ab.1 ab.2) ab.2 ab.1) s ps in
  exists ns', ginv ms s' ns' /\ forall a b, covers (gm_table s') (a, b) = [|| covers (gm_table s) (a, b), (a, b) \in ps | (b, a) \in ps].
Proof.
elim: ps s ns => [|[a b] ps IH] s ns iv /=; first by move=> _; exists ns; split=> // a b; rewrite !orbF.
case/andP => /andP [/= ha hb] hp; have [n1 [i1 c1]] := account_inv iv ha hb; have [n2 [i2 c2]] := account_inv i1 hb ha.
have [n3 [i3 c3]] := IH _ _ i2 hp; exists n3; split=> // a' b'; rewrite c3 c2 c1 !in_cons.
have -> : ((b', a') == (a, b)) = ((b, a) == (a', b')) by rewrite !xpair_eqE andbC ![_ == a]eq_sym ![_ == b]eq_sym.
rewrite [(a', b') == _]eq_sym; case: (_ == _); case: (_ == _); case: (covers _ _); case: (_ \in _) => //.
Qed.

Lemma tab_ok_cat ms ns tab : tab_ok ms ns tab -> tab_ok (ms ++ ns) [::] tab.
Proof.
move=> h a b c /h [ha hb hc e]; rewrite cats0 !nth_cat ha hb -!nth_cat; split=> //; rewrite size_cat.
  exact: leq_trans ha (leq_addr _ _).
exact: leq_trans hb (leq_addr _ _).
Qed.

Lemma loop_inv fuel old add tab idx' tab' : uniq (old ++ add) -> (forall x, x \in old ++ add -> P x) ->
  tab_ok (old ++ add) [::] tab -> (forall a b, (a < size old)%N -> (b < size old)%N -> covers tab (a, b)) ->
  gm_loop mul x0 fuel (enum 0 (old ++ add)) (enum (size old) add) (swap (old ++ add)) tab = Some (idx', tab') ->
  exists ms, [/\ idx' = enum 0 (old ++ add ++ ms), uniq (old ++ add ++ ms), forall x, x \in old ++ add ++ ms -> P x,
    tab_ok (old ++ add ++ ms) [::] tab'
    & forall a b, (a < size (old ++ add ++ ms))%N -> (b < size (old ++ add ++ ms))%N -> covers tab' (a, b)].
Proof.
elim: fuel old add tab => [|fuel IH] old add tab u hP ht hc; case: add u hP ht => [|x add] u hP ht //.
- by case=> <- <-; exists [::]; rewrite !cats0 in u hP ht *.
- by case=> <- <-; exists [::]; rewrite !cats0 in u hP ht *.
set ms := old ++ x :: add in u hP ht *.
set ps := [seq (p.1, q.1) | p <- enum (size old) (x :: add), q <- enum 0 ms]; set s0 := GM (swap ms) [::] tab.
have -> : gm_loop mul x0 fuel.+1 (enum 0 ms) (enum (size old) (x :: add)) (swap ms) tab =
  let s := foldl (fun s ab => account mul x0 (enum 0 ms) (account mul x0 (enum 0 ms) s ab.1 ab.2) ab.2 ab.1) s0 ps in
  gm_loop mul x0 fuel (asets (enum 0 ms) (gm_new s)) (gm_new s) (gm_hash s) (gm_table s) by [].
have iv : ginv ms s0 [::] by split; rewrite ?cats0.
have mem_ps a b : (a, b) \in ps = (size old <= a < size ms)%N && (b < size ms)%N.
  rewrite mem_pairs1 !keys_enum !mem_iota add0n leq0n andTb.
  by rewrite {3}/ms size_cat.
have hps : all (fun ab => (ab.1 < size ms)%N && (ab.2 < size ms)%N) ps.
  by apply/allP => -[a b]; rewrite mem_ps => /andP [/andP [_ ->] ->].
have [ns [[e1 e2 e3 e4 e5] cov]] := fold_inv iv hps; set s' := foldl _ _ _ in e1 e2 e5 cov *.
cbv zeta; have -> : asets (enum 0 ms) (gm_new s') = enum 0 (ms ++ ns).
  rewrite e2 asets_new; first by rewrite [RHS]enum_cat.
  rewrite map_cat !keys_enum; have := iota_uniq 0 (size ms + size ns); by rewrite iotaD add0n.
rewrite e2 e1 => el; have [] := IH ms ns _ e3 e4 (tab_ok_cat e5) _ el.
  move=> a b ha hb; rewrite cov !mem_ps ha hb !andbT.
  case: (leqP (size old) a) => h1; first by rewrite orbT.
  case: (leqP (size old) b) => h2; first by rewrite !orbT.
  by rewrite hc.
by move=> ms' [h1 h2 h3 h4 h5]; exists (ns ++ ms'); move: h1 h2 h3 h4 h5; rewrite /ms -!catA !cat_cons.
Qed.

Lemma gen_mats_ok fuel mats gens table idx : uniq mats -> (forall x, x \in mats -> P x) ->
  gen_mats mul x0 fuel mats = Some (gens, table, idx) ->
  exists ms, let m := size (mats ++ ms) in
    [/\ idx = enum 0 (mats ++ ms), uniq (mats ++ ms), forall x, x \in mats ++ ms -> P x,
      [/\ size table = m, gens = [seq nth [::] table r | r <- iota 0 (size mats)] & forall a, (a < m)%N -> size (nth [::] table a) = m]
    & forall a b, (a < m)%N -> (b < m)%N -> (tb table a b < m)%N /\
        nth x0 (mats ++ ms) (tb table a b) = mul (nth x0 (mats ++ ms) a) (nth x0 (mats ++ ms) b)].
Proof.
move=> u hP; rewrite /gen_mats -/(enum 0 mats).
have -> : asets [::] [seq (p.2, p.1) | p <- enum 0 mats] = swap mats by rewrite asets_new //= -/(swap mats) keys_swap.
case el: gm_loop => [[idx' tab]|] //; rewrite /gm_result; case: ifP => // hv [e1 e2 e3].
have [//|//|//|//|ms [h1 h2 h3 h4 h5]] := @loop_inv fuel [::] mats [::] idx' tab _ _ _ _ el.
rewrite !cat0s in h1 h2 h3 h4 h5; exists ms; have sI : size idx' = size (mats ++ ms) by rewrite h1 size_zip size_iota minnn.
rewrite -e3 -e2 -e1 !sI; split=> //; first by rewrite size_mkseq; split=> // a ha; rewrite nth_mkseq // size_mkseq.
move=> a b ha hb; rewrite /tb nth_mkseq // nth_mkseq //; have := h5 a b ha hb; rewrite /covers; case e: aget => [c|] // _.
by have [_ _ hc ec] := h4 a b c e; rewrite !cats0 in hc ec *.
Qed.
End GMProofs.

(* a finite cancellative associative table is the table of a group *)
Lemma cancel_table t : (0 < size t)%N -> (forall a, (a < size t)%N -> size (nth [::] t a) = size t) ->
  (forall a b, (a < size t)%N -> (b < size t)%N -> (tb t a b < size t)%N) ->
  (forall a b c, (a < size t)%N -> (b < size t)%N -> (c < size t)%N -> tb t a (tb t b c) = tb t (tb t a b) c) ->
  (forall a b c, (a < size t)%N -> (b < size t)%N -> (c < size t)%N -> tb t a b = tb t a c -> b = c) ->
  (forall a b c, (a < size t)%N -> (b < size t)%N -> (c < size t)%N -> tb t b a = tb t c a -> b = c) -> is_table t.
Proof.
move=> n0 hs hlt hA hl hr; split=> //.
have v a : (a < size t)%N -> valid (size t) (nth [::] t a).
  move=> ha; apply: validP; [exact: hs | by move=> i hi; apply: hlt | by move=> i j hi hj /(hl a i j ha hi hj)].
pose sol a c := index c (nth [::] t a).
have solP a c : (a < size t)%N -> (c < size t)%N -> (sol a c < size t)%N /\ tb t a (sol a c) = c.
  by move=> ha hc; rewrite /sol (valid_index (v _ ha)) // /tb (valid_indexK (v _ ha)).
have [he ee] := solP 0%N 0%N n0 n0; set e := sol 0%N 0%N in he ee.
have id1 x : (x < size t)%N -> tb t e x = x.
  by move=> hx; apply: (hl 0%N); rewrite ?hlt // hA // ee.
have id2 x : (x < size t)%N -> tb t x e = x.
  by move=> hx; apply: (hr 0%N); rewrite ?hlt // -hA // id1.
exists e => // a ha; split; rewrite ?id1 ?id2 //; have [hb eb] := solP a e ha he; exists (sol a e) => //.
by apply: (hl a); rewrite ?hlt // hA // eb id1 ?id2.
Qed.

Section MatGroup.
Variables (F : fieldType) (d : nat).
Notation sq := (@square F d).

Lemma sq_mulE (A B : mat F) : sq A -> sq B -> mx d d (mull d A B) = mx d d A *m mx d d B.
Proof. by case/andP => /andP [/eqP sA wA] _ /andP [/andP [/eqP sB wB] _]; apply: mx_mull. Qed.
Lemma sq_eq (A B : mat F) : sq A -> sq B -> mx d d A = mx d d B -> A = B.
Proof. by case/andP => /andP [/eqP sA wA] _ /andP [/andP [/eqP sB wB] _]; apply: mx_inj. Qed.
Lemma sq_unit (A : mat F) : sq A -> mx d d A \in unitmx. Proof. by case/andP. Qed.

(* the product of the generators named by a word *)
Definition word_prod (mats : seq (mat F)) (w : seq nat) : 'M[F]_d := foldr (fun a M => mx d d (nth [::] mats a) *m M) 1%:M w.
Fixpoint word_perm (m : nat) (gens : seq perm) (w : seq nat) : perm :=
  if w is a :: w' then pmul (word_perm m gens w') (nth [::] gens a) else pid m.
Lemma word_prod_cat mats u w : word_prod mats (u ++ w) = word_prod mats u *m word_prod mats w.
Proof. by elim: u => [|a u IH] /=; rewrite ?mul1mx // IH mulmxA. Qed.

Theorem gen_mats_group fuel mats gens table idx : (0 < size mats)%N -> uniq mats -> all sq mats ->
  gen_mats (mull d) [::] fuel mats = Some (gens, table, idx) ->
  let lift := gm_lift [::] table idx in
  [/\ grp_ok (size table) table, {subset gens <= table} /\ size gens = size mats,
      forall i, (i < size mats)%N -> lift (nth [::] gens i) = nth [::] mats i,
      forall p q, p \in table -> q \in table -> lift (pmul p q) = mull d (lift q) (lift p)
    & forall p, p \in table -> exists w, all (fun i => i < size mats)%N w /\ p = word_perm (size table) gens w].
Proof.
move=> n0 u /allP hsq.
pose P (A : mat F) := sq A /\ exists w, all (fun i => i < size mats)%N w /\ mx d d A = word_prod mats w.
have Pmul A B : P A -> P B -> P (mull d A B).
  move=> [qA [w [hw eA]]] [qB [v [hv eB]]]; split; first exact: sq_closed.
  by exists (w ++ v); rewrite all_cat hw hv sq_mulE // eA eB word_prod_cat.
have hP A : A \in mats -> P A.
  move=> hA; split; first exact: hsq.
  by exists [:: index A mats]; rewrite /= index_mem hA mulmx1 nth_index.
move=> /(gen_mats_ok Pmul u hP) [ms /=]; set all_ms := mats ++ ms; set m := size all_ms.
case=> ei um hPm [sT eg hrow] ht; rewrite /gm_lift ei.
have lm : (size mats <= m)%N by rewrite /m size_cat leq_addr.
have m0 : (0 < m)%N by apply: leq_trans lm.
have M a : (a < m)%N -> sq (nth [::] all_ms a) by move=> ha; have [] := hPm _ (mem_nth [::] ha).
have inj a b : (a < m)%N -> (b < m)%N -> mx d d (nth [::] all_ms a) = mx d d (nth [::] all_ms b) -> a = b.
  move=> ha hb e; apply/eqP; rewrite -(nth_uniq [::] ha hb um); apply/eqP; apply: sq_eq; by rewrite ?M.
have hlt a b : (a < m)%N -> (b < m)%N -> (tb table a b < m)%N by move=> ha hb; case: (ht a b ha hb).
have mt a b : (a < m)%N -> (b < m)%N -> mx d d (nth [::] all_ms (tb table a b)) = mx d d (nth [::] all_ms a) *m mx d d (nth [::] all_ms b).
  by move=> ha hb; have [_ ->] := ht a b ha hb; rewrite sq_mulE ?M.
have isT : is_table table.
  apply: cancel_table; rewrite ?sT //.
  - by move=> a b c ha hb hc; apply: inj; rewrite ?hlt // !mt ?hlt // mulmxA.
  - move=> a b c ha hb hc /(congr1 (fun x => mx d d (nth [::] all_ms x))); rewrite !mt // => /(congr1 (mulmx (invmx (mx d d (nth [::] all_ms a))))).
    by rewrite !mulmxA mulVmx ?sq_unit ?M // !mul1mx; apply: inj.
  move=> a b c ha hb hc /(congr1 (fun x => mx d d (nth [::] all_ms x))); rewrite !mt // => /(congr1 (mulmxr (invmx (mx d d (nth [::] all_ms a))))) /=.
  by rewrite -!mulmxA mulmxV ?sq_unit ?M // !mulmx1; apply: inj.
have [_ gT] := from_table_ok isT.
have nthg i : (i < size mats)%N -> nth [::] gens i = nth [::] table i.
  by move=> hi; rewrite eg (nth_map 0%N) ?size_iota // nth_iota.
have L a : (a < m)%N -> odflt [::] (aget (enum 0 all_ms) (table_index table (nth [::] table a))) = nth [::] all_ms a.
  by move=> ha; rewrite table_index_row ?sT // -[a]add0n (aget_enum [::]) -/m ha.
split=> //.
- rewrite eg size_map size_iota; split=> // p /mapP [r]; rewrite mem_iota add0n => hr ->; apply: mem_nth.
  by rewrite sT; apply: leq_trans lm.
- by move=> i hi; rewrite nthg // L ?(leq_trans hi) // nth_cat hi.
- move=> p q /(nthP [::]) [a ha <-] /(nthP [::]) [b hb <-]; rewrite sT in ha hb.
  by rewrite row_mul ?sT // !L ?hlt //; have [_ ->] := ht b a hb ha.
move=> p /(nthP [::]) [a ha <-]; rewrite sT in ha; have [_ [w [hw ew]]] := hPm _ (mem_nth [::] ha); exists w; split=> //.
have W v : all (fun i => i < size mats)%N v -> valid m (word_perm m gens v) /\ forall i, (i < m)%N ->
    mx d d (nth [::] all_ms (nth 0%N (word_perm m gens v) i)) = word_prod mats v *m mx d d (nth [::] all_ms i).
  elim: v => [_ | c v IH /= /andP [hc hv]]; first by split; rewrite /= ?valid_pid // => i hi; rewrite nth_pid // mul1mx.
  have [v1 v2] := IH hv; have hc' := leq_trans hc lm.
  have vc : valid m (nth [::] table c) by have := row_valid isT; rewrite sT; apply.
  rewrite nthg //; split=> [|i hi]; first exact: valid_pmul.
  rewrite (@nth_pmul m) // -/(tb _ _ _) mt ?valid_nth // v2 // mulmxA; by rewrite nth_cat hc.
have [w1 w2] := W w hw; rewrite sT; apply: (@perm_ext m) => //; first by have := row_valid isT; rewrite sT; apply.
move=> i hi; apply: inj; rewrite ?(valid_nth w1) ?hlt // w2 // -ew; exact: mt.
Qed.
End MatGroup.
