(* Circuits for transversal automorphisms: model of qldpc/circuits.py:197-245 and 317-367. *)
From mathcomp Require Import all_ssreflect zify.
Set Implicit Arguments.
Unset Strict Implicit.
Unset Printing Implicit Defensive.

(* ====================================================================== specification *)
(* a single-qubit Pauli operator without sign, and its image under a single-qubit Clifford gate as documented by stim:
   H exchanges X and Z, S exchanges X and Y, SQRT_X and H_YZ exchange Y and Z, C_XYZ maps X -> Y -> Z -> X and
   C_ZYX maps Z -> Y -> X -> Z *)
Inductive pauli := PX | PY | PZ.
Inductive gname := GH | GS | SQRT_X | H_YZ | C_XYZ | C_ZYX.
Definition act1 (g : gname) (p : pauli) : pauli :=
  match g, p with
  | GH, PX => PZ | GH, PY => PY | GH, PZ => PX
  | GS, PX => PY | GS, PY => PX | GS, PZ => PZ
  | SQRT_X, PX => PX | SQRT_X, PY => PZ | SQRT_X, PZ => PY
  | H_YZ, PX => PX | H_YZ, PY => PZ | H_YZ, PZ => PY
  | C_XYZ, PX => PY | C_XYZ, PY => PZ | C_XYZ, PZ => PX
  | C_ZYX, PZ => PY | C_ZYX, PY => PX | C_ZYX, PX => PZ
  end.

(* instructions of a stim circuit, and the image of a Pauli operator on one qubit (location, type) under a circuit *)
Inductive instr := Swap (a b : nat) | Loc (g : gname) (targets : seq nat).
Definition swap_loc (a b x : nat) : nat := if x == a then b else if x == b then a else x.
Definition act (i : instr) (xp : nat * pauli) : nat * pauli :=
  match i with
  | Swap a b => (swap_loc a b xp.1, xp.2)
  | Loc g ts => (xp.1, iter (count_mem xp.1 ts) (act1 g) xp.2)
  end.
Definition run (c : seq instr) (xp : nat * pauli) : nat * pauli := foldl (fun s i => act i s) xp c.

(* the local gates that may be chosen (SWAP is kept separately), circuits.py:304-311 *)
Inductive lgate := LS | LH | LSX.
Definition lgate_eqb (a b : lgate) := match a, b with LS, LS | LH, LH | LSX, LSX => true | _, _ => false end.
Lemma lgate_eqP : Equality.axiom lgate_eqb. Proof. by case; case; constructor. Qed.
Canonical lgate_eqType := EqType lgate (EqMixin lgate_eqP).
Definition gname_eqb (a b : gname) := match a, b with
  | GH, GH | GS, GS | SQRT_X, SQRT_X | H_YZ, H_YZ | C_XYZ, C_XYZ | C_ZYX, C_ZYX => true | _, _ => false end.
Lemma gname_eqP : Equality.axiom gname_eqb. Proof. by case; case; constructor. Qed.
Canonical gname_eqType := EqType gname (EqMixin gname_eqP).

(* circuits.py:205-220: the Pauli errors that the column sectors of the instrumental code stand for.  An error of type Z is
   detected by the X part of the checks, hence the sector matrix_x stands for Z *)
Definition sectors (gs : seq lgate) : seq pauli :=
  match gs with
  | [::] => [:: PZ; PX]
  | [:: LH] => [:: PZ; PX]
  | [:: LS] => [:: PX; PY]
  | [:: LSX] => [:: PZ; PY]
  | _ => [:: PZ; PX; PY]
  end.

(* ============================================================================== model *)
(* sympy's Permutation.cyclic_form (external): the cycles of the permutation with array form `a`, starting from the smallest
   elements, without fixed points; sympy sorts the list, but it is sorted already *)
Fixpoint walk (fuel : nat) (a seen : seq nat) (j : nat) : seq nat :=
  if fuel is f.+1 then
    let k := nth 0 a j in if k \in seen then [::] else k :: walk f a (k :: seen) k
  else [::].
Fixpoint cycles_loop (a seen ids : seq nat) : seq (seq nat) :=
  if ids is i :: ids' then
    if i \in seen then cycles_loop a seen ids'
    else let c := i :: walk (size a) a (i :: seen) i in
         if size c > 1 then c :: cycles_loop a (c ++ seen) ids' else cycles_loop a (c ++ seen) ids'
  else [::].
Definition cyclic_form (a : seq nat) : seq (seq nat) := cycles_loop a [::] (iota 0 (size a)).

(* circuits.py:317-325: _get_swap_circuit; the automorphism is a function on column indices.  None models the error raised by
   GroupMember for a list which is not a permutation *)
Definition new_locs (n : nat) (aut : nat -> nat) : seq nat := [seq aut q %% n | q <- iota 0 n].
Definition cycle_circuit (c : seq nat) : seq instr := if c is l0 :: ls then [seq Swap l0 l1 | l1 <- ls] else [::].
Definition swap_circuit (n : nat) (aut : nat -> nat) : option (seq instr) :=
  if perm_eq (new_locs n aut) (iota 0 n) then Some (flatten (map cycle_circuit (cyclic_form (new_locs n aut)))) else None.

(* circuits.py:328-367: _get_pauli_permutation_circuit; gate_targets is an association list in order of insertion.
   Simplification: one stim instruction per gate, `sorted` is seq.sort *)
Definition pauli_gate (n : nat) (aut : nat -> nat) (q : nat) : option gname :=
  match [seq aut (q + s * n) %/ n | s <- iota 0 3] with
  | [:: 1; 0; 2] => Some GH
  | [:: 0; 2; 1] => Some GS
  | [:: 2; 1; 0] => Some H_YZ
  | [:: 2; 0; 1] => Some C_ZYX
  | [:: 1; 2; 0] => Some C_XYZ
  | _ => None
  end.
Fixpoint add_target (g : gname) (q : nat) (d : seq (gname * seq nat)) : seq (gname * seq nat) :=
  if d is (g', ts) :: d' then if g' == g then (g', rcons ts q) :: d' else (g', ts) :: add_target g q d'
  else [:: (g, [:: q])].
Definition gate_targets (n : nat) (aut : nat -> nat) : seq (gname * seq nat) :=
  foldl (fun d q => if pauli_gate n aut q is Some g then add_target g q d else d) [::] (iota 0 n).
Definition lname (g : lgate) : gname := match g with LS => GS | LH => GH | LSX => SQRT_X end.
Definition pauli_circuit (n : nat) (aut : nat -> nat) (gs : seq lgate) : seq instr :=
  match gs with
  | [::] => [::]
  | [:: g] => [seq Loc (lname g) [:: q] | q <- iota 0 n & n <= aut q]
  | _ => [seq Loc d.1 (sort leq d.2) | d <- gate_targets n aut]
  end.

(* circuits.py:273-276: the circuit of an automorphism, up to Pauli corrections *)
Definition aut_circuit (n : nat) (aut : nat -> nat) (gs : seq lgate) : option (seq instr) :=
  if swap_circuit n aut is Some sw then Some (pauli_circuit n aut gs ++ sw) else None.

(* circuits.py:229-244: generators of the group of transversal gates, as functions on column indices *)
Definition swap_gen (n q : nat) (x : nat) : nat :=
  if x %% n == q then x.+1 else if x %% n == q.+1 then x.-1 else x.
Definition sector_gen (n s q : nat) (x : nat) : nat := swap_loc (s * n + q) (s.+1 * n + q) x.
Definition is_gen (n : nat) (gs : seq lgate) (swaps : bool) (a : nat -> nat) : Prop :=
  (swaps /\ exists2 q, q.+1 < n & a =1 swap_gen n q) \/
  (gs != [::] /\ exists s q, [/\ s.+1 < size (sectors gs), q < n & a =1 sector_gen n s q]).
(* elements of the group: products of generators *)
Inductive gen_by (P : (nat -> nat) -> Prop) : (nat -> nat) -> Prop :=
| gen_id a : a =1 id -> gen_by P a
| gen_mul a b c : gen_by P a -> P b -> (forall x, c x = b (a x)) -> gen_by P c.

(* ============================================================================= proofs *)
Lemma run_cat c d xp : run (c ++ d) xp = run d (run c xp). Proof. exact: foldl_cat. Qed.

Lemma run_cycle l0 ls x p : uniq (l0 :: ls) -> run (cycle_circuit (l0 :: ls)) (x, p) = (next (l0 :: ls) x, p).
Proof.
elim: ls x => [|l1 ls IH] x; first by rewrite /= => _; case: eqP => // ->.
move=> U; have /and3P [] := U; rewrite inE negb_or => /andP [/negbTE n01 n0] n1 u.
have u' : uniq (l0 :: ls) by rewrite cons_uniq n0.
have -> : run (cycle_circuit (l0 :: l1 :: ls)) (x, p) = run (cycle_circuit (l0 :: ls)) (swap_loc l0 l1 x, p) by [].
rewrite (IH _ u') /swap_loc; congr pair; rewrite !next_nth !inE; move: x => /= x.
have [e | n0x] := eqVneq x l0.
  by rewrite [l1 == l0]eq_sym n01 (negbTE n1).
have [e | n1x] := eqVneq x l1.
  by rewrite !eqxx.
by rewrite /= [l0 == x]eq_sym !(negbTE n0x) /=; case: ifP.
Qed.

Section Perm.
Variable a : seq nat.
Let n := size a.
Let f := nth 0 a.
Hypothesis pa : perm_eq a (iota 0 n).

Let f_lt x : x < n -> f x < n.
Proof. by move=> hx; have : f x \in a by [apply: mem_nth]; rewrite (perm_mem pa) mem_iota add0n. Qed.
Let f_inj x y : x < n -> y < n -> f x = f y -> x = y.
Proof.
move=> hx hy /eqP; rewrite nth_uniq //; first by move/eqP.
by rewrite (perm_uniq pa) iota_uniq.
Qed.

(* a set of indices below n that contains the images and preimages of its elements *)
Definition closed (seen : seq nat) : Prop :=
  (forall x, x \in seen -> x < n) /\ forall x, x < n -> (f x \in seen) = (x \in seen).

Lemma walk_ok fuel seen0 i p j : closed seen0 -> i < n -> i \notin seen0 ->
  uniq (i :: p) -> fpath f i p -> last i p = j -> all (fun x => x < n) p ->
  all (fun x => x \notin seen0) p -> n < size p + 1 + fuel ->
  let c := i :: p ++ walk fuel a (rev (i :: p) ++ seen0) j in
  [/\ uniq c, fcycle f c, all (fun x => x < n) c & all (fun x => x \notin seen0) c].
Proof.
move=> [lt0 cl0] hi ni; elim: fuel p j => [|fuel IH] p j u fp lj ltp np le.
  have sz : size (i :: p) <= n.
    rewrite -[n](size_iota 0) uniq_leq_size // => x; rewrite inE mem_iota add0n => /orP [/eqP -> // | xp].
    exact: (allP ltp).
  exfalso; move: le sz => /=; lia.
have hj : j < n by have := mem_last i p; rewrite lj inE => /orP [/eqP -> // | /(allP ltp)].
set k := nth 0 a j; have hk : k < n by exact: f_lt.
have jn : j \notin seen0 by have := mem_last i p; rewrite lj inE => /orP [/eqP -> // | /(allP np)].
have kn : k \notin seen0 by rewrite (cl0 _ hj).
rewrite [walk _ _ _ _]/= -/k.
have -> : (k \in rev (i :: p) ++ seen0) = (k \in i :: p) by rewrite mem_cat mem_rev (negbTE kn) orbF.
case: ifP => [kp | /negbT kp]; last first.
  have e : p ++ k :: walk fuel a (k :: rev (i :: p) ++ seen0) k = rcons p k ++ walk fuel a (rev (i :: rcons p k) ++ seen0) k.
    by rewrite cat_rcons -rcons_cons rev_rcons.
  rewrite e; apply: IH.
  - by rewrite -rcons_cons rcons_uniq kp.
  - by rewrite rcons_path fp /= lj eqxx.
  - by rewrite last_rcons.
  - by rewrite all_rcons hk.
  - by rewrite all_rcons kn.
  - by rewrite size_rcons; move: le; lia.
rewrite cats0; have ki : k = i.
  apply/eqP/negPn/negP => nki; have kp' : k \in p by move: kp; rewrite inE (negbTE nki).
  have [p1 [p2 ep]] : exists p1 p2, p = rcons p1 k ++ p2 by case/splitPr: kp' => p1 p2; exists p1, p2; rewrite cat_rcons.
  have fk : f (last i p1) = k by move: fp; rewrite ep cat_path rcons_path => /andP [/andP [_ /eqP]].
  have hl : last i p1 < n.
    have := mem_last i p1; rewrite inE => /orP [/eqP -> // | h]; apply: (allP ltp).
    by rewrite ep mem_cat mem_rcons inE h orbT.
  have ej := f_inj hj hl (esym fk : f j = f (last i p1)).
  have : last i p \in i :: p1 by rewrite lj ej mem_last.
  rewrite ep last_cat last_rcons => h.
  move: u; rewrite ep cat_rcons -cat_cons cat_uniq => /and3P [_ /hasPn hn _].
  by have /hn /= := mem_last k p2; rewrite h.
move=> c; rewrite {}/c; split=> //; first by rewrite /= rcons_path fp /= lj; apply/eqP; exact: ki.
- by rewrite /= hi.
- by rewrite /= ni.
Qed.

Lemma closed_cat seen c : closed seen -> fcycle f c -> all (fun x => x < n) c -> closed (c ++ seen).
Proof.
move=> [lt cl] fc ltc; split=> [x | x hx].
  by rewrite mem_cat => /orP [/(allP ltc) | /lt].
rewrite !mem_cat cl //; congr (_ || _); apply/idP/idP => h; last first.
  by have /eqP -> := next_cycle fc h; rewrite mem_next.
have := prev_cycle fc h; set y := prev c (f x) => /eqP fy.
have yc : y \in c by rewrite mem_prev.
by rewrite -(f_inj (allP ltc _ yc) hx fy).
Qed.

Lemma run_cycles ids seen x p : closed seen -> all (fun i => i < n) ids -> x < n -> (x \in seen) || (x \in ids) ->
  run (flatten (map cycle_circuit (cycles_loop a seen ids))) (x, p) = (if x \in seen then x else f x, p).
Proof.
elim: ids seen x => [|i ids IH] seen x cl /=.
  by move=> _ _; rewrite orbF => ->.
move=> /andP [hi his] hx; case: ifP => iseen.
  rewrite inE => h; apply: IH => //; apply/orP; case/orP: h => [->|/orP [/eqP -> | ->]]; [left|left|right] => //.
set c := i :: walk _ _ _ _ => hxs.
have [u fc ltc nc] : [/\ uniq c, fcycle f c, all (fun x => x < n) c & all (fun x => x \notin seen) c].
  by apply: (@walk_ok n seen i [::] i) => //=; rewrite ?iseen // -/n; lia.
have cl' := closed_cat cl fc ltc.
have step : run (cycle_circuit c) (x, p) = (next c x, p) by apply: run_cycle.
have rest : run (flatten (map cycle_circuit (cycles_loop a (c ++ seen) ids))) (next c x, p) = (if x \in seen then x else f x, p).
  have [xc | xc] := boolP (x \in c).
    have xs : x \in seen = false by apply/negbTE/(allP nc).
    have /eqP fx := next_cycle fc xc.
    have nin : next c x \in c ++ seen by rewrite mem_cat mem_next xc.
    rewrite IH //; first by rewrite nin xs fx.
    - by rewrite -fx f_lt.
    - by rewrite nin.
  have -> : next c x = x by rewrite next_nth (negbTE xc).
  rewrite IH //; first by rewrite mem_cat (negbTE xc).
  rewrite mem_cat (negbTE xc) /=; move: hxs; rewrite inE.
  by case: (eqVneq x i) => [e | _] //; move: xc; rewrite e mem_head.
case: ifP => sz; first by rewrite /= run_cat step.
have ec : c = [:: i] by move: sz; rewrite /c; case: walk.
have nx : next c x = x by rewrite ec /=; case: eqP => // ->.
by rewrite nx in rest; exact: rest.
Qed.

Lemma run_cyclic x p : x < n -> run (flatten (map cycle_circuit (cyclic_form a))) (x, p) = (f x, p).
Proof.
move=> hx; rewrite run_cycles //; first by apply/allP => i; rewrite mem_iota add0n.
by rewrite mem_iota add0n.
Qed.
End Perm.

(* ------------------------------------------------------------------------------------ Pauli permutations *)
(* an automorphism acts by blocks: it moves qubit q to w q and permutes the sectors of qubit q by t q *)
Definition block_aut (n k : nat) (w : nat -> nat) (t : nat -> nat -> nat) (aut : nat -> nat) : Prop :=
  [/\ forall q, q < n -> w q < n,
      forall q r, q < n -> r < n -> w q = w r -> q = r,
      forall q s, q < n -> s < k -> t q s < k,
      forall q s s', q < n -> s < k -> s' < k -> t q s = t q s' -> s = s'
    & forall q s, q < n -> s < k -> aut (s * n + q) = t q s * n + w q].

Lemma new_locs_perm n k w t aut : 0 < k -> block_aut n k w t aut ->
  perm_eq (new_locs n aut) (iota 0 n) /\ forall q, q < n -> nth 0 (new_locs n aut) q = w q.
Proof.
move=> k0 [wlt winj tlt tinj e].
have el q : q < n -> aut q %% n = w q.
  by move=> hq; have := e q 0 hq k0; rewrite mul0n add0n => ->; rewrite modnMDl modn_small // wlt.
have en : new_locs n aut = [seq w q | q <- iota 0 n].
  by apply/eq_in_map => q; rewrite mem_iota add0n; apply: el.
split=> [|q hq]; last by rewrite en (nth_map 0) ?size_iota // nth_iota.
rewrite en; apply: uniq_perm; rewrite ?iota_uniq //.
  by rewrite map_inj_in_uniq ?iota_uniq // => q r; rewrite !mem_iota !add0n; apply: winj.
have u : uniq [seq w q | q <- iota 0 n].
  by rewrite map_inj_in_uniq ?iota_uniq // => q r; rewrite !mem_iota !add0n; apply: winj.
have sub : {subset [seq w q | q <- iota 0 n] <= iota 0 n}.
  by move=> x /mapP [q]; rewrite !mem_iota !add0n => hq ->; apply: wlt.
by have [] := uniq_min_size u sub; rewrite ?size_map.
Qed.

Lemma swap_ok n k w t aut : 0 < k -> block_aut n k w t aut ->
  exists2 c, swap_circuit n aut = Some c & forall q p, q < n -> run c (q, p) = (w q, p).
Proof.
move=> k0 b; have [pa e] := new_locs_perm k0 b.
rewrite /swap_circuit pa; eexists; first by [].
have sz : size (new_locs n aut) = n by rewrite size_map size_iota.
move=> q p hq; rewrite run_cyclic ?sz //; first by rewrite e.
Qed.

(* ---- one local gate *)
Lemma run_single (g : gname) (P : pred nat) n q p : q < n ->
  run [seq Loc g [:: r] | r <- iota 0 n & P r] (q, p) = (q, if P q then act1 g p else p).
Proof.
move=> hq; have : uniq (iota 0 n) by rewrite iota_uniq.
have : q \in iota 0 n by rewrite mem_iota.
elim: (iota 0 n) => [|r rs IH] //=; rewrite inE => h /andP [nr u].
have skip rs' p' : q \notin rs' -> run [seq Loc g [:: r] | r <- rs' & P r] (q, p') = (q, p').
  elim: rs' p' => [|r' rs' IH'] p' //=; rewrite inE negb_or => /andP [/negbTE h1 h2].
  by case: ifP => _; rewrite ?IH' // /run /= eq_sym h1 -/(run _ _) IH'.
have [e | ne] := eqVneq q r.
  by rewrite -e in nr *; case: ifP => Pr; rewrite ?skip // /run /= eqxx /= -/(run _ _) skip.
have h' : q \in rs by rewrite (negbTE ne) in h.
by case: ifP => Pr; rewrite ?IH // /run /= eq_sym (negbTE ne) -/(run _ _) IH.
Qed.

(* ---- several local gates *)
Definition tgt (d : seq (gname * seq nat)) (q : nat) (p : pauli) : pauli :=
  foldl (fun p e => iter (count_mem q e.2) (act1 e.1) p) p d.

Lemma run_targets d q p : run [seq Loc e.1 (sort leq e.2) | e <- d] (q, p) = (q, tgt d q p).
Proof.
elim: d p => [|e d IH] p //=.
by rewrite /run /= -/(run _ _) IH (permP (permEl (perm_sort leq e.2))).
Qed.

Lemma tgt_fresh d q p : all (fun e => q \notin e.2) d -> tgt d q p = p.
Proof.
elim: d p => [|e d IH] p //= /andP [h1 h2]; rewrite /tgt /= -/(tgt _ _ _).
by rewrite (count_memPn h1) /= IH.
Qed.

Lemma tgt_add d g q r p : all (fun e => q \notin e.2) d -> tgt (add_target g q d) r p =
  if r == q then act1 g p else tgt d r p.
Proof.
elim: d p => [|[g' ts] d IH] p /=; first by rewrite /tgt /= eq_sym; case: eqP.
move=> /andP [h1 h2]; case: eqP => [e | _].
  rewrite /tgt /= -cats1 count_cat /= addn0 -/(tgt _ _ _) -/(tgt _ _ _) eq_sym.
  case: eqP => [-> | _]; last by rewrite addn0.
  by rewrite (count_memPn h1) /= e tgt_fresh.
rewrite /tgt /= -!/(tgt _ _ _) IH //; case: eqP => [-> | _] //.
by rewrite (count_memPn h1).
Qed.

Lemma add_fresh d g q r : all (fun e => r \notin e.2) d -> r != q -> all (fun e => r \notin e.2) (add_target g q d).
Proof.
move=> h ne; elim: d h => [|[g' ts] d IH] /=; first by rewrite inE ne.
move=> /andP [h1 h2]; case: eqP => _ /=; last by rewrite h1 IH.
by rewrite mem_rcons inE negb_or ne h1 h2.
Qed.

Lemma tgt_gates n aut q p : q < n ->
  tgt (gate_targets n aut) q p = if pauli_gate n aut q is Some g then act1 g p else p.
Proof.
move=> hq; rewrite /gate_targets; have : q \in iota 0 n by rewrite mem_iota.
have := iota_uniq 0 n; set qs := iota 0 n.
have : forall r, r \in qs -> all (fun e => r \notin e.2) ([::] : seq (gname * seq nat)) by [].
have keep rs d : q \notin rs -> (forall r, r \in rs -> all (fun e => r \notin e.2) d) -> uniq rs ->
  tgt (foldl (fun d q => if pauli_gate n aut q is Some g then add_target g q d else d) d rs) q p = tgt d q p.
  elim: rs d => [|r rs IH] d //=; rewrite inE negb_or => /andP [ne nin] h /andP [nr u].
  have hr : all (fun e => r \notin e.2) d by apply: h; rewrite mem_head.
  case: (pauli_gate n aut r) => [g|]; last by apply: IH => // r' h'; apply: h; rewrite inE h' orbT.
  rewrite IH //; first by rewrite tgt_add // (negbTE ne).
  move=> r' h'; apply: add_fresh; first by apply: h; rewrite inE h' orbT.
  by apply: contraNneq nr => <-.
elim: qs ([::] : seq (gname * seq nat)) => [|r rs IH] d h //= /andP [nr u]; rewrite inE.
have hr : all (fun e => r \notin e.2) d by apply: h; rewrite mem_head.
have h1 g : forall r', r' \in rs -> all (fun e => r' \notin e.2) (add_target g r d).
  move=> r' h'; apply: add_fresh; first by apply: h; rewrite inE h' orbT.
  by apply: contraNneq nr => <-.
have h0 : forall r', r' \in rs -> all (fun e => r' \notin e.2) d by move=> r' h'; apply: h; rewrite inE h' orbT.
have [e | ne] := eqVneq q r => /= [_ | hin].
  rewrite -e in nr hr h1 h0 *; case: (pauli_gate n aut q) (h1) => [g|] h1'; rewrite keep //.
  - by rewrite tgt_add // eqxx.
  - exact: h1'.
  - by rewrite tgt_fresh.
by case: (pauli_gate n aut r) => [g|]; apply: IH => //; apply: h1.
Qed.

(* ---- the gates realise the permutation of the sectors *)
Lemma gates_ok n w t aut (gs : seq lgate) q s : uniq gs -> block_aut n (size (sectors gs)) w t aut ->
  (gs = [::] -> forall q s, q < n -> s < 2 -> t q s = s) ->
  q < n -> s < size (sectors gs) ->
  run (pauli_circuit n aut gs) (q, nth PX (sectors gs) s) = (q, nth PX (sectors gs) (t q s)).
Proof.
move=> u b triv hq hs; have n0 : 0 < n by apply: leq_ltn_trans hq.
have [wlt winj tlt tinj e] := b.
have one g : gs = [:: g] -> run (pauli_circuit n aut gs) (q, nth PX (sectors gs) s) = (q, nth PX (sectors gs) (t q s)).
  move=> eg; have sz : size (sectors gs) = 2 by rewrite eg; case: (g).
  rewrite sz in tlt tinj e hs b; rewrite eg /= run_single //.
  have eq0 : aut q = t q 0 * n + w q by have := e q 0 hq isT; rewrite mul0n add0n.
  have -> : (n <= aut q) = (t q 0 == 1).
    rewrite eq0; have := tlt q 0 hq isT; case: (t q 0) => [|[|m]] // _.
      by rewrite mul0n add0n leqNgt wlt.
    by rewrite mul1n leq_addr.
  have := tlt q 0 hq isT; have := tlt q 1 hq isT; have := tinj q 0 1 hq isT isT.
  move: hs; case: s => [|[|s]] //= _; case: (t q 0) => [|[|m]] //=; case: (t q 1) => [|[|m']] //=;
  by case: (g) => //= h; have := h erefl.
have three : size (sectors gs) = 3 -> sectors gs = [:: PZ; PX; PY] ->
  pauli_circuit n aut gs = [seq Loc e.1 (sort leq e.2) | e <- gate_targets n aut] ->
  run (pauli_circuit n aut gs) (q, nth PX (sectors gs) s) = (q, nth PX (sectors gs) (t q s)).
  move=> sz es ->; rewrite es run_targets tgt_gates //; congr pair.
  rewrite sz in tlt tinj e hs b.
  have et j : j < 3 -> aut (q + j * n) %/ n = t q j.
    by move=> hj; rewrite addnC e // divnMDl // divn_small ?addn0 // wlt.
  rewrite /pauli_gate /= !et //.
  have := tlt q 0 hq isT; have := tlt q 1 hq isT; have := tlt q 2 hq isT.
  have := tinj q 0 1 hq isT isT; have := tinj q 0 2 hq isT isT; have := tinj q 1 2 hq isT isT.
  move: hs; clear one; case: s => [|[|[|s]]] //= _;
  case: (t q 0) => [|[|[|m]]] //=; case: (t q 1) => [|[|[|m']]] //=; case: (t q 2) => [|[|[|m'']]] //=;
  by move=> h12 h02 h01; first [have := h12 erefl | have := h02 erefl | have := h01 erefl].
clear tlt tinj e; case: gs u b triv hs one three => [|g [|g' gs]] u b triv hs one three.
- by rewrite /= (triv erefl).
- exact: (one g).
- by apply: three; case: (g).
Qed.

Lemma aut_circuit_ok n w t aut (gs : seq lgate) : uniq gs -> block_aut n (size (sectors gs)) w t aut ->
  (gs = [::] -> forall q s, q < n -> s < 2 -> t q s = s) ->
  exists2 c, aut_circuit n aut gs = Some c &
    forall q s, q < n -> s < size (sectors gs) ->
      run c (q, nth PX (sectors gs) s) = (w q, nth PX (sectors gs) (t q s)).
Proof.
move=> u b triv; have k0 : 0 < size (sectors gs) by case: (gs) => [|[] [|[] ?]].
have [c ec hc] := swap_ok k0 b; rewrite /aut_circuit ec; eexists; first by [].
by move=> q s hq hs; rewrite run_cat (gates_ok u b triv) // hc.
Qed.

(* ---- every element of the group of transversal gates acts by blocks *)
Lemma block_ext n k w t aut aut' : (forall x, aut x = aut' x) -> block_aut n k w t aut -> block_aut n k w t aut'.
Proof. by move=> e [? ? ? ? h]; split=> // q s hq hs; rewrite -e h. Qed.

Lemma block_mul n k w t a w' t' b : block_aut n k w t a -> block_aut n k w' t' b ->
  block_aut n k (w' \o w) (fun q s => t' (w q) (t q s)) (b \o a).
Proof.
move=> [l1 i1 m1 j1 e1] [l2 i2 m2 j2 e2]; split=> /=.
- by move=> q hq; apply/l2/l1.
- by move=> q r hq hr /(i2 _ _ (l1 _ hq) (l1 _ hr)) /i1; apply.
- by move=> q s hq hs; apply: m2; [apply: l1 | apply: m1].
- by move=> q s s' hq hs hs' /(j2 _ _ _ (l1 _ hq) (m1 _ _ hq hs) (m1 _ _ hq hs')) /j1; apply.
- by move=> q s hq hs; rewrite e1 // e2 //; [apply: l1 | apply: m1].
Qed.

Lemma swap_loc_inj a b x y : swap_loc a b x = swap_loc a b y -> x = y.
Proof. by rewrite /swap_loc; case: (x =P a) => ?; case: (x =P b) => ?; case: (y =P a) => ?; case: (y =P b) => ?; congruence. Qed.

Lemma block_gen n gs sw a : is_gen n gs sw a ->
  exists w t, block_aut n (size (sectors gs)) w t a /\ (gs = [::] -> forall q s, q < n -> s < 2 -> t q s = s).
Proof.
move=> [[_ [q hq e]] | [gs0 [s [q [hs hq e]]]]].
  exists (swap_loc q q.+1), (fun _ s => s); split=> //; split=> //.
  - by move=> r hr; rewrite /swap_loc; case: eqP => // _; case: eqP => // _; move: hq; lia.
  - by move=> r r' _ _; apply: swap_loc_inj.
  move=> r s hr hs; rewrite e /swap_gen modnMDl modn_small // /swap_loc.
  case: eqP => [-> | _]; first by rewrite addnS.
  by case: eqP => [-> | _] //; rewrite addnS.
exists id, (fun r s' => if r == q then swap_loc s s.+1 s' else s'); split; last by move=> e0; rewrite e0 in gs0.
have n0 : 0 < n by apply: leq_ltn_trans hq.
split=> //.
- move=> r s' hr hs'; case: ifP => // _; rewrite /swap_loc; case: eqP => // _; case: eqP => // _; move: hs; lia.
- by move=> r s1 s2 _ _ _; case: ifP => // _; apply: swap_loc_inj.
move=> r s' hr hs'; rewrite e /sector_gen /swap_loc.
have E s1 : (s' * n + r == s1 * n + q) = (s' == s1) && (r == q).
  apply/eqP/andP => [h | [/eqP -> /eqP -> //]].
  have := congr1 (modn^~ n) h; have := congr1 (divn^~ n) h.
  by rewrite !divnMDl // !modnMDl !modn_small // !divn_small // !addn0 => -> ->; rewrite !eqxx.
rewrite !E; case: (r =P q) => [-> | _]; last by rewrite !andbF.
by rewrite !andbT; case: eqP => // _; case: eqP.
Qed.

Lemma block_group n gs sw a : gen_by (is_gen n gs sw) a ->
  exists w t, block_aut n (size (sectors gs)) w t a /\ (gs = [::] -> forall q s, q < n -> s < 2 -> t q s = s).
Proof.
elim=> [{}a e | {}a b c _ [w [t [B T]]] /block_gen [w' [t' [B' T']]] e].
  by exists id, (fun _ s => s); split=> //; split=> // *; rewrite e.
exists (w' \o w), (fun q s => t' (w q) (t q s)); split.
  by apply: block_ext (block_mul B B') => x /=; rewrite e.
move=> e0 q s hq hs; rewrite T // T' //; by case: B => h *; apply: h.
Qed.

Lemma swap_perm_ok n (w : nat -> nat) : (forall q, q < n -> w q < n) -> (forall q r, q < n -> r < n -> w q = w r -> q = r) ->
  exists2 c, swap_circuit n w = Some c & forall q p, q < n -> run c (q, p) = (w q, p).
Proof.
move=> wlt winj; apply: (@swap_ok n 1 w (fun _ s => s) w) => //; split=> // q [|s] // hq _.
Qed.

Lemma group_circuit_ok n gs sw a : uniq gs -> gen_by (is_gen n gs sw) a ->
  exists2 c, aut_circuit n a gs = Some c &
    forall q s, q < n -> s < size (sectors gs) ->
      run c (q, nth PX (sectors gs) s) = (a (s * n + q) %% n, nth PX (sectors gs) (a (s * n + q) %/ n)).
Proof.
move=> u /block_group [w [t [B T]]]; have [c ec h] := aut_circuit_ok u B T.
exists c => // q s hq hs; rewrite h //; have [wlt _ _ _ e] := B.
have n0 : 0 < n by apply: leq_ltn_trans hq.
by rewrite e // modnMDl modn_small ?wlt // divnMDl // divn_small ?addn0 ?wlt.
Qed.
