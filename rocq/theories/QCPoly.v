(* Polynomials of quasi-cyclic codes: model of qldpc/codes/quantum.py:217-228, 277-318. *)
From mathcomp Require Import all_ssreflect all_algebra zify.
From Verif Require Import BBLayout.
Set Implicit Arguments.
Unset Strict Implicit.
Unset Printing Implicit Defensive.
Import GRing.Theory Num.Theory.
Local Open Scope ring_scope.

(* ============================================================================== model *)
(* sympy (external): an expanded expression is the sum of its monomials, each a nonzero integer
   coefficient and one integer exponent per symbol of the code. *)
Definition term : Type := (int * seq int)%type.

(* sympy (external): the factors of a monomial, with a coefficient 1 and exponents 0 left out *)
Definition factors (k : nat) (t : term) : seq term :=
  (if t.1 == 1 then [::] else [:: (t.1, nseq k 0)]) ++
  [seq (1, set_nth 0 (nseq k 0) i (nth 0 t.2 i)) | i <- iota 0 k & nth 0 t.2 i != 0].

(* sympy (external): `args` of an expression.  A sum of at least two monomials has the monomials, a product its
   factors, a power its base and its exponent, and an integer or a symbol nothing. *)
Definition args (k : nat) (p : seq term) : seq term :=
  match p with
  | [::] => [::]
  | [:: t] =>
      match factors k t with
      | [:: f] =>
          if f.1 != 1 then [::] else
          [seq g | g <- flatten [seq (if nth 0 f.2 i == 0 then [::] else
             if nth 0 f.2 i == 1 then [::] else
             [:: (1, set_nth 0 (nseq k 0) i 1); (nth 0 f.2 i, nseq k 0)]) | i <- iota 0 k]]
      | fs => fs
      end
  | _ => p
  end.

(* quantum.py:306-316: one term; the coefficient is multiplied in once per symbol, as in the code *)
Definition canon_term (orders : seq nat) (t : term) : term :=
  foldl (fun (acc : term) i => (acc.1 * t.1, rcons acc.2 (canon_exp (nth 0%N orders i) (nth 0 t.2 i))))
        (1, [::]) (iota 0 (size orders)).

(* quantum.py:297-318: get_canonical_form of an expression; the terms of the result are not merged *)
Definition canonical_form (orders : seq nat) (p : seq term) : seq term :=
  map (canon_term orders) (args (size orders) p).

(* quantum.py:217-228: the symbols of the code when the orders are given as a sequence.  Names are lists of
   character codes, the symbols come sorted; `concat` is the concatenation of the names in the order of the Python
   set.  None means that the loop has not ended within `fuel` rounds. *)
Definition placeholder (symbols : seq (seq nat)) : seq nat := 126%N :: flatten symbols.
Fixpoint pad (fuel : nat) (u : seq nat) (keys : seq (seq nat)) (n : nat) : option (seq (seq nat)) :=
  if (size keys < n)%N then
    match fuel with
    | 0%N => None
    | f.+1 => pad f u (if u \in keys then keys else rcons keys u) n
    end
  else Some keys.
Definition code_symbols (fuel : nat) (set_order symbols : seq (seq nat)) (n : nat) : option (option (seq (seq nat))) :=
  if (n < size symbols)%N then Some None                       (* ValueError *)
  else omap Some (pad fuel (placeholder set_order) symbols n).

(* ====================================================================== specification *)
(* the coefficient of a group member in the group algebra of Z_{r1} x ... x Z_{rk} over F *)
Definition is_at (orders : seq nat) (t : term) (g : seq nat) : bool :=
  all (fun i => (nth 0%R t.2 i == (nth 0%N g i)%:Z %[mod nth 0%N orders i])%Z) (iota 0 (size orders)).
Definition coeff_at (F : fieldType) (orders : seq nat) (p : seq term) (g : seq nat) : F :=
  \sum_(t <- p | is_at orders t g) (t.1)%:~R.

(* ============================================================================= proofs *)
Lemma canon_term_acc orders t acc l :
  foldl (fun (acc : term) i => (acc.1 * t.1, rcons acc.2 (canon_exp (nth 0%N orders i) (nth 0 t.2 i)))) acc l =
  (acc.1 * t.1 ^+ size l, acc.2 ++ [seq canon_exp (nth 0%N orders i) (nth 0 t.2 i) | i <- l]).
Proof.
elim: l acc => [|i l IH] [c e] /=; first by rewrite mulr1 cats0.
by rewrite IH /= -mulrA exprS cat_rcons.
Qed.

Lemma canon_termE orders t : canon_term orders t =
  (t.1 ^+ size orders, [seq canon_exp (nth 0%N orders i) (nth 0 t.2 i) | i <- iota 0 (size orders)]).
Proof. by rewrite /canon_term canon_term_acc mul1r /= size_iota. Qed.

Lemma canon_exp_mod (o : nat) (e : int) : (canon_exp o e = e %[mod o])%Z.
Proof.
case: o => [|o]; first by rewrite /canon_exp modz0; case: ifP => //; rewrite subr0.
by have [] := @canon_expP o.+1 e isT.
Qed.

Lemma is_at_canon orders t g : is_at orders (canon_term orders t) g = is_at orders t g.
Proof.
rewrite canon_termE; apply: eq_in_all => i; rewrite mem_iota add0n /= => hi.
by rewrite (nth_map 0%N) ?size_iota // nth_iota // add0n canon_exp_mod.
Qed.

Theorem canonical_form_ok (F : fieldType) orders p g : size p != 1%N ->
  (forall t, t \in p -> (t.1)%:~R ^+ size orders = (t.1)%:~R :> F) ->
  coeff_at F orders (canonical_form orders p) g = coeff_at F orders p g.
Proof.
move=> sz hc; have -> : canonical_form orders p = map (canon_term orders) p by rewrite /canonical_form; case: p sz {hc} => [|t [|t' p]].
rewrite /coeff_at big_map big_seq_cond [RHS]big_seq_cond; apply: eq_big => [t | t /andP [ht _]]; first by rewrite is_at_canon.
by rewrite canon_termE /= -hc // rmorphX.
Qed.

(* over the binary field every coefficient qualifies *)
Lemma F2_expr (x : 'F_2) k : (0 < k)%N -> x ^+ k = x.
Proof.
have [-> | ->] : x = 0 \/ x = 1 by case: x => [[|[|[]]]] // h; [left | right]; exact: val_inj.
  by move=> k0; rewrite expr0n; case: k k0.
by rewrite expr1n.
Qed.

Theorem canonical_form_binary orders p g : (0 < size orders)%N -> size p != 1%N ->
  coeff_at [fieldType of 'F_2] orders (canonical_form orders p) g = coeff_at [fieldType of 'F_2] orders p g.
Proof. by move=> k0 sz; apply: canonical_form_ok => // t _; apply: F2_expr. Qed.

Theorem canonical_form_range orders p t i : all (fun o => 0 < o)%N orders -> t \in canonical_form orders p -> (i < size orders)%N ->
  - (nth 0%N orders i)%:Z < 2%:Z * nth 0 t.2 i <= (nth 0%N orders i)%:Z.
Proof.
move=> /allP o0 /mapP [s _ ->] hi; rewrite canon_termE /= (nth_map 0%N) ?size_iota // nth_iota // add0n.
by have [_ -> ->] := canon_expP (nth 0 s.2 i) (o0 _ (mem_nth 0%N hi)).
Qed.

(* the placeholder never collides with a symbol *)
Lemma placeholder_fresh set_order symbols : perm_eq set_order symbols -> placeholder set_order \notin symbols.
Proof.
move=> pe; rewrite -(perm_mem pe); apply/negP => h.
have le (s : seq (seq nat)) x : x \in s -> (size x <= size (flatten s))%N.
  elim: s => //= y s IH; rewrite inE size_cat => /orP [/eqP -> | /IH h2]; first exact: leq_addr.
  by apply: leq_trans h2 (leq_addl _ _).
by have := le _ _ h; rewrite /= ltnn.
Qed.

Theorem code_symbols_ok fuel set_order symbols n : perm_eq set_order symbols -> uniq symbols ->
  (size symbols <= n <= size symbols + 1)%N -> (0 < fuel)%N ->
  exists2 keys, code_symbols fuel set_order symbols n = Some (Some keys) & uniq keys && (size keys == n).
Proof.
move=> pe us /andP [h1 h2] f0; rewrite /code_symbols ltnNge h1 /=.
have fr := placeholder_fresh pe; case: fuel f0 => // f _ /=.
have [h | h] := ltnP; last by exists symbols => //; rewrite us eqn_leq h h1.
have en : n = (size symbols).+1 by apply/eqP; rewrite eqn_leq h andbT -addn1.
exists (rcons symbols (placeholder set_order)); last by rewrite rcons_uniq fr us size_rcons en eqxx.
by rewrite (negPf fr); case: f => [|f] /=; rewrite size_rcons en ltnn.
Qed.

Lemma pad_stuck fuel u keys n : u \in keys -> (size keys < n)%N -> pad fuel u keys n = None.
Proof. by move=> hu h; elim: fuel => [|f IH] /=; rewrite h // hu. Qed.

Theorem code_symbols_stuck fuel set_order symbols n : (size symbols + 2 <= n)%N -> code_symbols fuel set_order symbols n = None.
Proof.
move=> h; rewrite /code_symbols ltnNge (_ : size symbols <= n)%N /=; last by apply: leq_trans h; rewrite leq_addr.
suff -> : pad fuel (placeholder set_order) symbols n = None by [].
case: fuel => [|f] /=; rewrite (_ : size symbols < n)%N //; try by apply: leq_trans h; rewrite addn2.
case: ifP => hu; first by apply: pad_stuck => //; apply: leq_trans h; rewrite addn2.
by apply: pad_stuck; rewrite ?mem_rcons ?mem_head // size_rcons; apply: leq_trans h; rewrite addn2.
Qed.
