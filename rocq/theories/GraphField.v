(* The field recorded in Tanner graphs: model of graph.order in matrix_to_graph and graph_to_matrix (qldpc/codes/common.py:267-294
   and 779-814) and in HGPCode.get_graph_product (qldpc/codes/quantum.py:759-807).  The graphs are those of TannerGraph.v; elements
   of GF(q) are the numbers 0 .. q - 1, as in galois. *)
From mathcomp Require Import all_ssreflect.
From Verif Require Import TannerGraph.
Set Implicit Arguments.
Unset Strict Implicit.
Unset Printing Implicit Defensive.

(* ============================================================================== model *)
Inductive res (A : Type) := Ok of A | TypeErr | ValueErr | IndexErr.
Arguments TypeErr {A}. Arguments ValueErr {A}. Arguments IndexErr {A}.

(* the value of graph.order: a number stored on the graph, or else the method DiGraph.order, which every networkx graph has (it
   counts nodes) *)
Inductive attr := Method | Stored of nat.
Record ograph (T : Type) := OGraph { og : graph T; order : attr }.
(* getattr(graph, "order", DEFAULT_FIELD_ORDER), common.py:290 and 813: the default (DEFAULT_FIELD_ORDER = 2, abstract.py:49) is for objects without the attribute, and there are none *)
Definition getattr_order (T : Type) (g : ograph T) (default : attr) : attr := order g.

(* galois.GF (external): TypeError unless given an integer, ValueError unless it is a prime power *)
Definition is_order (q : nat) : bool := size (primes q) == 1.
Definition galois_GF (a : attr) : res nat :=
  match a with Method => TypeErr | Stored q => if is_order q then Ok q else ValueErr end.

(* a matrix given to matrix_to_graph: a galois array over GF(q), or numbers *)
Inductive matrix_arg := FieldArray of nat & seq (seq nat) | Numbers of seq (seq nat).
Definition rows (x : matrix_arg) : seq (seq nat) := match x with FieldArray _ A => A | Numbers A => A end.
(* isinstance(matrix, galois.FieldArray): graph.order = type(matrix).order *)
Definition order_of (x : matrix_arg) : attr := match x with FieldArray q _ => Stored q | Numbers _ => Method end.

(* common.py:267-283: ClassicalCode.matrix_to_graph; n columns *)
Definition to_graph (n : nat) (x : matrix_arg) : ograph nat := OGraph (matrix_to_graph 0 n (rows x)) (order_of x).

(* the loop of common.py:292-293; galois checks the value before numpy checks the indices.  An edge without "val" is an edge with
   value 1 here *)
Fixpoint fill (q m n : nat) (A : seq (seq nat)) (es : seq ((nat * nat) * nat)) : res (seq (seq nat)) :=
  match es with
  | [::] => Ok A
  | e :: es' =>
      if q <= e.2 then ValueErr
      else match set_entry 0 m n (Some A) e with Some A' => fill q m n A' es' | None => IndexErr end
  end.
(* common.py:285-294: ClassicalCode.graph_to_matrix; field, shape and rows of the result *)
Definition from_graph (g : ograph nat) : res (nat * (nat * nat * seq (seq nat))) :=
  let n := num_data (og g) in
  let m := num_checks (og g) in
  match galois_GF (getattr_order g (Stored 2)) with
  | Ok q => match fill q m n (nseq m (nseq n 0)) (edges (og g)) with
            | Ok A => Ok (q, (m, n, A)) | TypeErr => TypeErr | ValueErr => ValueErr | IndexErr => IndexErr end
  | TypeErr => TypeErr | ValueErr => ValueErr | IndexErr => IndexErr
  end.

(* common.py:779-802: QuditCode.matrix_to_graph; ValueError is that of np.reshape for a matrix without rows.  The conversion to
   Pauli operators for q = 2 keeps the values *)
Definition qto_graph (n : nat) (x : matrix_arg) : res (ograph (nat * nat)) :=
  if qmatrix_to_graph 0 n (rows x) is Some g then Ok (OGraph g (order_of x)) else ValueErr.
(* common.py:804-814: QuditCode.graph_to_matrix: numbers first, then the field *)
Definition qfrom_graph (g : ograph (nat * nat)) : res (nat * (nat * nat * seq (seq nat))) :=
  if qgraph_to_matrix 0 (og g) is Some r then
    match galois_GF (getattr_order g (Stored 2)) with
    | Ok q => if all (all (fun v => v < q)) r.2 then Ok (q, r) else ValueErr
    | TypeErr => TypeErr | ValueErr => ValueErr | IndexErr => IndexErr
    end
  else IndexErr.

(* quantum.py:798-800: hasattr(graph_a, "order") holds for all graphs; graph_b is not looked at.  Only the order of the product
   is modelled here, its nodes and edges are arbitrary *)
Definition product (T U V : Type) (a : ograph T) (b : ograph U) (g : graph V) : ograph V := OGraph g (order a).

(* graph.order = q, by the user *)
Definition set_order (T : Type) (q : nat) (g : ograph T) : ograph T := OGraph (og g) (Stored q).

(* ============================================================================= proofs *)
Lemma set_entry_none T (z : T) m n es : foldl (set_entry z m n) None es = None.
Proof. by elim: es. Qed.

Lemma fillE q m n A es : all (fun e : (nat * nat) * nat => e.2 < q) es ->
  fill q m n A es = if foldl (set_entry 0 m n) (Some A) es is Some B then Ok B else IndexErr.
Proof.
elim: es A => [|e es IH] A //= /andP [h1 h2]; rewrite leqNgt h1 /=.
by case: ifP => _; [rewrite IH | rewrite set_entry_none].
Qed.

Lemma fill_val q m n A es B : fill q m n A es = Ok B -> all (fun e : (nat * nat) * nat => e.2 < q) es.
Proof.
elim: es A => [|e es IH] A //=; rewrite leqNgt; case: ltnP => //= h.
by case: ifP => // _; apply: IH.
Qed.

Lemma put_all T (P : T -> bool) e f (es : seq ((nat * nat) * T)) : (forall o, P (f o)) ->
  all (fun d => P d.2) es -> all (fun d => P d.2) (put e f es).
Proof.
move=> hf; elim: es => [|[e' d] es IH] /=; first by rewrite hf.
by case/andP => h1 h2; case: eqP => _ /=; [rewrite hf h2 | rewrite h1 IH].
Qed.

Lemma graph_vals q n (A : seq (seq nat)) : 0 < q -> all (all (fun v => v < q)) A ->
  all (fun e : (nat * nat) * nat => e.2 < q) (edges (matrix_to_graph 0 n A)).
Proof.
move=> q0 hA.
have hv i j : nth 0 (nth [::] A i) j < q.
  case: (ltnP i (size A)) => hi; last by rewrite (nth_default [::] hi) nth_nil.
  have /allP hr := all_nthP [::] hA i hi.
  case: (ltnP j (size (nth [::] A i))) => hj; last by rewrite nth_default.
  by apply/hr/mem_nth.
rewrite /matrix_to_graph.
have: all (fun e : (nat * nat) * nat => e.2 < q) (edges (empty_graph nat)) by [].
elim: (nonzero 0 n A) (empty_graph nat) => [|ij s IH] g hg //=.
apply: IH => /=; exact: (@put_all _ (fun v => v < q)).
Qed.

Lemma order_gt0 q : is_order q -> 0 < q.
Proof. by case: q. Qed.

Lemma from_to q n A : is_order q -> all (all (fun v => v < q)) A ->
  from_graph (to_graph n (FieldArray q A)) =
  if graph_to_matrix 0 (matrix_to_graph 0 n A) is Some r then Ok (q, r) else IndexErr.
Proof.
move=> hq hA; rewrite /from_graph /= hq fillE; last by apply: graph_vals => //; apply: order_gt0.
by rewrite /graph_to_matrix /to_matrix; case: (foldl _ _ _).
Qed.

Lemma from_graph_field g q r : from_graph g = Ok (q, r) -> order g = Stored q /\ is_order q.
Proof.
rewrite /from_graph /getattr_order; case: (order g) => [|q'] //=; case: ifP => // hq.
by case: (fill _ _ _ _ _) => // B [<- _].
Qed.
Lemma qfrom_graph_field g q r : qfrom_graph g = Ok (q, r) -> order g = Stored q /\ is_order q.
Proof.
rewrite /qfrom_graph /getattr_order; case: (qgraph_to_matrix _ _) => // r'; case: (order g) => [|q'] //=; case: ifP => // hq.
by case: ifP => // _ [<- _].
Qed.
