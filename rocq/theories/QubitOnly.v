(* Which codes the circuit constructors accept: model of the decorator restrict_to_qubits (qldpc/circuits.py:32-41) and of the
   calls between the functions that it decorates. *)
From mathcomp Require Import all_ssreflect.
Set Implicit Arguments.
Unset Strict Implicit.
Unset Printing Implicit Defensive.

(* ============================================================================== model *)
(* an argument: a QuditCode over GF(q), or anything else *)
Inductive value := Code of nat | Other.
(* a call: positional arguments; the keyword argument code=..., if given; the values of other keyword arguments *)
Record call := Call { args : seq value; kw_code : option value; kwargs : seq value }.
(* ValueErr: "Circuit methods are only supported for qubit codes"; TypeErr: parameter code missing or given twice; Work v: the
   function gets to work on its parameter code = v (what it does then is not modelled here) *)
Inductive out := ValueErr | TypeErr | Work of value.

(* isinstance(arg, codes.QuditCode) and arg.field.order != 2 *)
Definition not_qubits (v : value) : bool := if v is Code q then q != 2 else false.
(* circuits.py:32-41: only args is inspected *)
Definition restrict_to_qubits (body : call -> out) (c : call) : out := if has not_qubits (args c) then ValueErr else body c.

(* python: the value of the first parameter, code *)
Definition bind (c : call) : option value :=
  match args c, kw_code c with
  | v :: _, None => Some v
  | [::], Some v => Some v
  | _, _ => None
  end.
Definition with_code (k : value -> out) (c : call) : out := if bind c is Some v then k v else TypeErr.
(* a call f(code, ...) from within the module; the other arguments are not codes *)
Definition positional (v : value) : call := Call [:: v; Other; Other] None [::].

(* circuits.py:44-86 *)
Definition get_encoding_tableau := restrict_to_qubits (with_code Work).
(* circuits.py:89-98 *)
Definition get_encoding_circuit := restrict_to_qubits (with_code (fun v => get_encoding_tableau (positional v))).
(* circuits.py:166-246 *)
Definition get_transversal_automorphism_group := restrict_to_qubits (with_code Work).
(* circuits.py:101-135: the first thing done with the code, line 120 *)
Definition get_transversal_ops := restrict_to_qubits (with_code (fun v => get_transversal_automorphism_group (positional v))).
(* circuits.py:396-406: line 401 *)
Definition get_encoder_and_decoder := restrict_to_qubits (with_code (fun v => get_encoding_tableau (positional v))).
(* circuits.py:379-393: line 390 *)
Definition get_logical_tableau := restrict_to_qubits (with_code (fun v => get_encoder_and_decoder (positional v))).
(* circuits.py:452-520: line 486 (the logical circuits are converted to tableaus before that) *)
Definition get_transversal_circuits := restrict_to_qubits (with_code (fun v => get_transversal_automorphism_group (positional v))).
(* circuits.py:523-547: not decorated *)
Definition get_transversal_circuit := with_code (fun v => get_transversal_circuits (positional v)).

(* the public functions *)
Inductive fn := EncodingTableau | EncodingCircuit | TransversalGroup | TransversalOps | EncoderDecoder | LogicalTableau
  | TransversalCircuits | TransversalCircuit.
Definition run (f : fn) : call -> out :=
  match f with
  | EncodingTableau => get_encoding_tableau
  | EncodingCircuit => get_encoding_circuit
  | TransversalGroup => get_transversal_automorphism_group
  | TransversalOps => get_transversal_ops
  | EncoderDecoder => get_encoder_and_decoder
  | LogicalTableau => get_logical_tableau
  | TransversalCircuits => get_transversal_circuits
  | TransversalCircuit => get_transversal_circuit
  end.
