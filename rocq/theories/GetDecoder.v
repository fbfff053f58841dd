(* Choice of a decoder from keyword arguments: model of qldpc/decoders.py:45-137, 219-221 and 362-367 (get_decoder and the functions
   it calls) and of the signatures in 154-161, 242-248 and 376 (LookupDecoder, GUFDecoder, ILPDecoder). *)
From mathcomp Require Import all_ssreflect.
Set Implicit Arguments.
Unset Strict Implicit.
Unset Printing Implicit Defensive.

(* ============================================================================== model *)
(* decoders.py:64-87: the decoders that can be asked for with an argument with_...=True, in this order: lookup, GUF, ILP, MWPM, BF,
   BP_LSD, BP_OSD *)
Inductive flag := FLookup | FGUF | FILP | FMWPM | FBF | FLSD | FOSD.
(* names of keyword arguments: decoder_constructor, static_decoder, with_..., error_rate, error_channel, max_weight, symplectic, and
   any other name *)
Inductive key := KConstructor | KStatic | KFlag of flag | KRate | KChannel | KWeight | KSymplectic | KOther of nat.
Definition flag_dec (f g : flag) : {f = g} + {f <> g}. Proof. by decide equality. Defined.
Definition key_dec (x y : key) : {x = y} + {x <> y}.
Proof. by decide equality; [exact: flag_dec | exact: (eq_comparable n n0)]. Defined.
Definition flag_eqMixin := EqMixin (compareP flag_dec).
Canonical flag_eqType := Eval hnf in EqType flag flag_eqMixin.
Definition key_eqMixin := EqMixin (compareP key_dec).
Canonical key_eqType := Eval hnf in EqType key key_eqMixin.

Inductive exc := AssertionErr | TypeErr.

Section Model.
(* python objects: their truth value, whether they can be called, whether they have a callable attribute decode, and
   PLACEHOLDER_ERROR_RATE (decoders.py:35) *)
Variables (val : Type) (truthy callable_ decodes : val -> bool) (placeholder : val).
(* accepts f k: the constructor of the external package behind f (ldpc, pymatching) takes the keyword k *)
Variable accepts : flag -> key -> bool.

(* keyword arguments, in order; names occur once *)
Definition kwargs := seq (key * val).
Definition keys (a : kwargs) : seq key := [seq x.1 | x <- a].
(* a.get(k) and a without k; a.pop(k, default) is both *)
Definition get (k : key) (a : kwargs) : option val := omap snd (ohead [seq x <- a | x.1 == k]).
Definition del (k : key) (a : kwargs) : kwargs := [seq x <- a | x.1 != k].
(* decoders.py:55, 59, 64, ...: the value of an argument that is given and true; a missing argument counts as None or False *)
Definition tget (k : key) (a : kwargs) : option val := if get k a is Some v then if truthy v then Some v else None else None.

(* what get_decoder does: raise, call the given constructor, return the given decoder, build a decoder from arguments *)
Inductive result := Raises of exc | Called of val & kwargs | Static of val | Built of flag & kwargs.

(* decoders.py:98-100, 110-112, 125-127 *)
Definition with_rate (a : kwargs) : kwargs :=
  if (KChannel \notin keys a) && (KRate \notin keys a) then rcons a (KRate, placeholder) else a.
(* python raises TypeError when a keyword is not a parameter of the function called *)
Definition call_with (ok : key -> bool) (f : flag) (a : kwargs) : result :=
  if all ok (keys a) then Built f a else Raises TypeErr.
(* decoders.py:91-137, 219-221, 362-367: get_decoder_lookup, get_decoder_GUF, ... ; LookupDecoder and GUFDecoder take max_weight and
   symplectic, ILPDecoder keeps whatever it is given. What the constructors do with their arguments is not modelled here. *)
Definition build (f : flag) (a : kwargs) : result :=
  match f with
  | FLookup | FGUF => call_with (fun k => (k == KWeight) || (k == KSymplectic)) f a
  | FILP => Built f a
  | FMWPM => call_with (accepts f) f a
  | FBF | FLSD | FOSD => call_with (accepts f) f (with_rate a)
  end.
(* decoders.py:64-88; nonbinary: the matrix is a FieldArray over a field other than GF(2) *)
Fixpoint try_flags (fs : seq flag) (nonbinary : bool) (a : kwargs) : result :=
  if fs is f :: fs' then
    if tget (KFlag f) a is Some _ then build f (del (KFlag f) a) else try_flags fs' nonbinary (del (KFlag f) a)
  else if nonbinary then build FGUF (del (KFlag FGUF) a) else build FOSD (del (KFlag FOSD) a).
(* decoders.py:53-88: get_decoder *)
Definition get_decoder (nonbinary : bool) (a : kwargs) : result :=
  if tget KConstructor a is Some c then if callable_ c then Called c (del KConstructor a) else Raises AssertionErr else
  let a1 := del KConstructor a in
  if tget KStatic a1 is Some d then if decodes d && nilp (del KStatic a1) then Static d else Raises AssertionErr else
  try_flags [:: FLookup; FGUF; FILP; FMWPM; FBF; FLSD] nonbinary (del KStatic a1).

(* ====================================================================== specification *)
(* decoders are looked for in this order; the last one is the default *)
Definition asked (nonbinary : bool) : seq flag := [:: FLookup; FGUF; FILP; FMWPM; FBF; FLSD; if nonbinary then FGUF else FOSD].
(* number of flags that are looked at and found missing or false *)
Definition skipped (a : kwargs) : nat := find (fun f => isSome (tget (KFlag f) a)) [:: FLookup; FGUF; FILP; FMWPM; FBF; FLSD].
Definition chosen nonbinary (a : kwargs) : flag := nth FOSD (asked nonbinary) (skipped a).
(* the arguments left for the decoder: neither the two special names nor the flags looked at *)
Definition left_over nonbinary (a : kwargs) : kwargs :=
  [seq x <- a | x.1 \notin KConstructor :: KStatic :: map KFlag (take (skipped a).+1 (asked nonbinary))].
(* the names each decoder takes *)
Definition takes (f : flag) (k : key) : bool :=
  match f with FLookup | FGUF => k \in [:: KWeight; KSymplectic] | FILP => true | _ => accepts f k end.
(* decoders that need an error rate get a placeholder unless they are told one *)
Definition completed (f : flag) (a : kwargs) : kwargs :=
  if (f \in [:: FBF; FLSD; FOSD]) && ~~ has (fun k => k \in [:: KRate; KChannel]) (keys a) then rcons a (KRate, placeholder) else a.

(* ============================================================================= proofs *)
Lemma get_filter (P : pred key) k a : P k -> get k [seq x <- a | P x.1] = get k a.
Proof.
move=> Pk; rewrite /get -filter_predI; congr (omap _ (ohead _)); apply: eq_filter => x /=.
by case: eqP => // ->.
Qed.
Lemma tget_filter (P : pred key) k a : P k -> tget k [seq x <- a | P x.1] = tget k a.
Proof. by move=> Pk; rewrite /tget get_filter. Qed.
Lemma tget_del k l a : k != l -> tget k (del l a) = tget k a.
Proof. by move=> h; rewrite /del (tget_filter (P := fun x => x != l)). Qed.
Lemma filter_keys (P Q : pred key) a : {in keys a, P =1 Q} -> [seq x <- a | P x.1] = [seq x <- a | Q x.1].
Proof.
elim: a => //= x a IH h; rewrite h ?mem_head // IH // => k hk; apply: h.
by rewrite in_cons hk orbT.
Qed.
Lemma tget_none k a : k \notin keys a -> tget k a = None.
Proof.
move=> h; rewrite /tget /get (_ : [seq x <- a | x.1 == k] = [::]) //; apply/nilP.
by rewrite /nilp size_filter -leqn0 leqNgt -has_count; move: h; rewrite -has_pred1 /keys has_map.
Qed.
Local Arguments build : simpl never.
Lemma try_flagsE fs nb a : uniq fs ->
  let d := if nb then FGUF else FOSD in let r := find (fun f => isSome (tget (KFlag f) a)) fs in
  try_flags fs nb a = build (nth FOSD (rcons fs d) r) [seq x <- a | x.1 \notin map KFlag (take r.+1 (rcons fs d))].
Proof.
elim: fs a => [|f fs IH] a /=.
  by move=> _; case: nb; rewrite /del; congr (build _ _); apply: eq_filter => x; rewrite inE.
case/andP=> nf u; case e: (tget (KFlag f) a) => [v|] /=.
  by rewrite take0; congr (build _ _); apply: eq_filter => x; rewrite inE.
rewrite IH //=; have -> : find (fun g => isSome (tget (KFlag g) (del (KFlag f) a))) fs = find (fun g => isSome (tget (KFlag g) a)) fs.
  by apply: eq_in_find => g hg /=; rewrite tget_del //; apply/eqP => -[h]; rewrite -h hg in nf.
congr (build _ _); rewrite /del -filter_predI; apply: eq_filter => x /=.
by rewrite inE negb_or andbC.
Qed.
End Model.
