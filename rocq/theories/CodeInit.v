(* Construction of codes from arrays and from codes: model of qldpc/codes/common.py:79-143, 207-218, 727-747 and 1573-1603.
   Field elements are integers here, as in galois, and the order of the field is data. *)
From mathcomp Require Import all_ssreflect all_algebra zify.
From Verif Require Import LinAlg RowReduce Classical Symplectic Quantum.
Set Implicit Arguments.
Unset Strict Implicit.
Unset Printing Implicit Defensive.
Import GRing.Theory.
Local Open Scope ring_scope.

(* ============================================================================== model *)
(* a two-dimensional integer array with its number of columns *)
Record arr := Arr { a_cols : nat; a_rows : seq (seq int) }.
Inductive kind := Classical | Qudit | Css.
(* common.py:79-83, 207: the attributes _field (its order), _matrix (None: no such attribute, as in a CSSCode, whose constructor
   common.py:1589-1603 sets none), _dimension, _distance and _generator (None: the value None, or no such attribute).
   Simplification: np.nan is not a distance here; the other cached operators are left out *)
Record obj := Obj { o_kind : kind; o_order : nat; o_matrix : option arr; o_dim : option nat; o_dist : option nat;
                    o_gen : option arr }.
(* the argument `matrix` of a constructor: a code, a galois array over GF(order), or a sequence or array of integers *)
Inductive source := FromCode of obj | FromArray of nat & arr | FromInts of arr.
(* a constructor returns, raises ValueError, or raises AttributeError *)
Inductive outcome := Made of obj | ValueError | AttributeError.

(* galois.GF(q) raises ValueError unless q is a prime power *)
Definition is_order (q : nat) : bool := size (primes q) == 1%N.
(* array.view(GF(q)) raises ValueError unless all entries are integers from 0 to q - 1 *)
Definition in_range (q : nat) (a : arr) : bool := all (all (fun x : int => (0 <= x < q%:Z))) (a_rows a).

(* common.py:85-112: AbstractCode.__init__(matrix, field), for an object of kind k *)
Definition abstract_init (k : kind) (matrix : source) (field : option nat) : outcome :=
  match matrix with
  | FromCode c =>
      if o_matrix c is Some m then
        let self := Obj k (o_order c) (Some m) (o_dim c) (o_dist c) None in
        if field is Some f then if f != o_order c then ValueError else Made self else Made self
      else AttributeError
  | FromArray q m => Made (Obj k q (Some m) None None None)
  | FromInts m =>
      let q := if field is Some f then if f == 0%N then 2%N else f else 2%N in
      if ~~ is_order q then ValueError
      else if ~~ in_range q m then ValueError else Made (Obj k q (Some m) None None None)
  end.
(* common.py:209-218: ClassicalCode(matrix, field) *)
Definition classical_init (matrix : source) (field : option nat) : outcome :=
  if abstract_init Classical matrix field is Made o then
    if matrix is FromCode c then
      if o_kind c is Classical then Made (Obj Classical (o_order o) (o_matrix o) (o_dim o) (o_dist o) (o_gen c)) else Made o
    else Made o
  else abstract_init Classical matrix field.
(* common.py:727-747: QuditCode(matrix, field).  Simplification: an odd number of columns is not looked at *)
Definition qudit_init (matrix : source) (field : option nat) : outcome := abstract_init Qudit matrix field.
(* common.py:1573-1603: CSSCode(code_x, code_z, field): a CSSCode, with the arrays of its subcodes *)
Definition css_init (x z : source) (field : option nat) : outcome * option (obj * obj) :=
  match classical_init x field, classical_init z field with
  | Made cx, Made cz =>
      if (omap a_cols (o_matrix cx) != omap a_cols (o_matrix cz)) || (o_order cx != o_order cz) then (ValueError, None)
      else (Made (Obj Css (o_order cx) None None None None), Some (cx, cz))
  | Made _, e => (e, None)
  | e, _ => (e, None)
  end.

(* the array as a matrix over F_p, and an object as a code in the models of Classical.v and Quantum.v *)
Definition mod_mat (p : nat) (a : arr) : mat [fieldType of 'F_p] := [seq [seq x%:~R | x <- r] | r <- a_rows a].
Definition as_ccode (p : nat) (o : obj) : ccode [fieldType of 'F_p] :=
  if o_matrix o is Some m then CCode (a_cols m) (mod_mat p m) (omap (mod_mat p) (o_gen o)) (o_dim o)
  else mkcode 0 [::].
Definition as_qcode (p : nat) (o : obj) : qcode [fieldType of 'F_p] :=
  if o_matrix o is Some m then
    QCode (a_cols m)./2 (mod_mat p m) (any_anticommute (a_cols m)./2 (mod_mat p m)) None None None (o_dim o)
  else mkq 0 [::] None.
