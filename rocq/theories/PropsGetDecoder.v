(* Property C95: how get_decoder chooses a decoder and passes arguments on (qldpc/decoders.py, get_decoder). *)
From mathcomp Require Import all_ssreflect zify.
From Verif Require Import GetDecoder.
Set Implicit Arguments.
Unset Strict Implicit.
Unset Printing Implicit Defensive.

Section Props.
Variables (val : Type) (truthy callable_ decodes : val -> bool) (placeholder : val) (accepts : flag -> key -> bool).
Notation get_decoder := (get_decoder truthy callable_ decodes placeholder accepts).
Notation tget := (tget truthy).
Notation completed := (completed placeholder).
Notation takes := (takes accepts).

(* the external decoders that are given a placeholder error rate take that argument *)
Definition rate_ok := forall f, f \in [:: FBF; FLSD; FOSD] -> accepts f KRate.

(* A constructor or a decoder that is given takes precedence over all flags. The constructor gets all other arguments; a decoder is
   returned only if there are no others. *)
Theorem C95_given nb (a : kwargs val) :
  [/\ forall c, tget KConstructor a = Some c -> callable_ c -> get_decoder nb a = Called c [seq x <- a | x.1 != KConstructor],
      forall d, tget KConstructor a = None -> tget KStatic a = Some d -> decodes d ->
        get_decoder nb a = if all (fun k => k \in [:: KConstructor; KStatic]) (keys a) then Static d else Raises _ AssertionErr
    & forall d, get_decoder nb a = Static d -> tget KStatic a = Some d].
Proof.
split.
- by move=> c h cc; rewrite /get_decoder h cc.
- move=> d h1 h2 hd; rewrite /get_decoder h1 tget_del // h2 hd /= /del -filter_predI.
  congr (if _ then _ else _); rewrite /nilp size_filter -leqn0 leqNgt -has_count -all_predC all_map; apply: eq_all => x /=.
  by rewrite !inE negb_and !negbK orbC.
- move=> d; rewrite /get_decoder; case: (tget KConstructor a) => [c|]; first by case: ifP.
  rewrite tget_del //; case: (tget KStatic a) => [e|]; first by case: ifP => // _ [->].
  by rewrite try_flagsE //; case: (nth _ _ _) => //=; rewrite /call_with; case: ifP.
Qed.

(* Otherwise the decoder is the first one in the order of the code whose flag is true, and the default if there is none. It is built
   from the arguments that have not been looked at, or a TypeError is raised if it does not take one of these. *)
Theorem C95_char nb (a : kwargs val) : rate_ok -> tget KConstructor a = None -> tget KStatic a = None ->
  let f := chosen truthy nb a in let p := left_over truthy nb a in
  get_decoder nb a = if all (takes f) (keys p) then Built f (completed f p) else Raises _ TypeErr.
Proof.
move=> hr h1 h2 f p; rewrite /get_decoder h1 tget_del // h2.
set b := del KStatic _; rewrite try_flagsE //.
have e k : k != KConstructor -> k != KStatic -> tget k b = tget k a by move=> k1 k2; rewrite /b !tget_del.
have -> : find (fun g => isSome (tget (KFlag g) b)) [:: FLookup; FGUF; FILP; FMWPM; FBF; FLSD] = skipped truthy a.
  by apply: eq_find => g; rewrite e.
rewrite -[rcons _ _]/(asked nb) -/(chosen truthy nb a) -/f.
have -> : [seq x <- b | x.1 \notin map KFlag (take (skipped truthy a).+1 (asked nb))] = p.
  rewrite /b /p /del -!filter_predI; apply: eq_filter => x /=; rewrite !in_cons !negb_or andbC.
  by rewrite -andbA; congr (_ && _); rewrite [RHS]andbC -andbA.
have rate g : g \in [:: FBF; FLSD; FOSD] -> call_with (accepts g) g (with_rate placeholder p) =
    if all (accepts g) (keys p) then Built g (completed g p) else Raises _ TypeErr.
  move=> hg; rewrite /call_with /with_rate /completed hg /=.
  have -> : (KChannel \notin keys p) && (KRate \notin keys p) = ~~ has (fun k => k \in [:: KRate; KChannel]) (keys p).
    elim: (keys p) => //= k s IH; rewrite !in_cons !negb_or andbACA IH ![_ == k]eq_sym.
    by case: (k == KRate); case: (k == KChannel).
  by case: (~~ has _ _) => //; rewrite /keys map_rcons all_rcons /= hr.
have lk : all (fun k => (k == KWeight) || (k == KSymplectic)) (keys p) = all (fun k => k \in [:: KWeight; KSymplectic]) (keys p).
  by apply: eq_all => k; rewrite !inE.
rewrite /build /GetDecoder.takes; case: f; rewrite ?rate //; rewrite /call_with /completed ?lk //.
by rewrite all_predT.
Qed.

(* in particular: with one flag that is true and no other flag, that decoder is built from the other arguments, *)
Theorem C95_single_partial nb (a : kwargs val) f v : rate_ok -> (f = FOSD -> ~~ nb) -> tget (KFlag f) a = Some v ->
  KConstructor \notin keys a -> KStatic \notin keys a -> (forall g, g != f -> KFlag g \notin keys a) ->
  let p := [seq x <- a | x.1 != KFlag f] in
  get_decoder nb a = if all (takes f) (keys p) then Built f (completed f p) else Raises _ TypeErr.
Proof.
move=> hr hf hv h1 h2 hg p.
have t g : tget (KFlag g) a = if g == f then Some v else None.
  by case: eqP => [-> // | /eqP ne]; apply: tget_none; apply: hg.
have sk : skipped truthy a = index f [:: FLookup; FGUF; FILP; FMWPM; FBF; FLSD].
  by apply: eq_find => g; rewrite /= t; case: eqP.
have ch : chosen truthy nb a = f.
  by rewrite /chosen sk; case: f hf {hv hg p t sk} => //= /(_ erefl) /negbTE ->.
rewrite C95_char ?tget_none // ch; suff -> : left_over truthy nb a = p by [].
rewrite /left_over; set L := map KFlag _.
have fin : KFlag f \in L.
  by rewrite /L sk; move: hf; clear; case: f => //= /(_ erefl) /negbTE ->.
have Lf k : k \in L -> exists g, k = KFlag g by case/mapP => g _ ->; exists g.
move: L fin Lf => L fin Lf; apply: (@filter_keys _ (fun k => k \notin KConstructor :: KStatic :: L) (fun k => k != KFlag f)) => k hk.
rewrite !in_cons !negb_or.
have -> /= : k != KConstructor by apply: contraNneq h1 => <-.
have -> /= : k != KStatic by apply: contraNneq h2 => <-.
case: eqP => [-> | nk]; first by rewrite fin.
apply/negP => /Lf [g e]; rewrite {}e in hk nk.
by case: (altP (g =P f)) => [gf | /hg]; [apply: nk; rewrite gf | rewrite hk].
Qed.

(* and with no flag at all, the default is the union-find decoder over fields other than GF(2), and BP+OSD otherwise *)
Theorem C95_default nb (a : kwargs val) : rate_ok -> KConstructor \notin keys a -> KStatic \notin keys a ->
  (forall g, KFlag g \notin keys a) -> let f := if nb then FGUF else FOSD in
  get_decoder nb a = if all (takes f) (keys a) then Built f (completed f a) else Raises _ TypeErr.
Proof.
move=> hr h1 h2 hg f; rewrite C95_char ?tget_none //.
have sk : skipped truthy a = 6 by rewrite /skipped /= !tget_none.
have -> : chosen truthy nb a = f by rewrite /chosen sk.
suff -> : left_over truthy nb a = a by [].
rewrite -[RHS]filter_predT /left_over; set L := map KFlag _.
have Lf k : k \in L -> exists g, k = KFlag g by case/mapP => g _ ->; exists g.
move: L Lf => L Lf; apply: (@filter_keys _ (fun k => k \notin KConstructor :: KStatic :: L) predT) => k hk.
rewrite !in_cons !negb_or.
have -> /= : k != KConstructor by apply: contraNneq h1 => <-.
have -> /= : k != KStatic by apply: contraNneq h2 => <-.
by apply/negP => /Lf [g e]; move: (hg g); rewrite -e hk.
Qed.

(* Two findings. A flag that is switched off is not ignored: it is handed to the decoder chosen before it is looked at, which does
   not take it, *)
Theorem C95_false_flag_refuted nb f g yes no : rate_ok -> truthy yes -> truthy no = false ->
  index f (asked false) < index g (asked false) -> takes f (KFlag g) = false ->
  get_decoder nb [:: (KFlag f, yes)] = Built f (completed f [::]) /\ get_decoder nb [:: (KFlag f, yes); (KFlag g, no)] = Raises _ TypeErr.
Proof.
move=> hr ty tn lt tk; have fO : f != FOSD by apply: contraTneq lt => ->; case: g {tk}.
have tf s : tget (KFlag f) ((KFlag f, yes) :: s) = Some yes by rewrite /GetDecoder.tget /get /= eqxx /= ty.
split.
  rewrite (@C95_single_partial nb _ f yes) //= ?eqxx //; first by move=> e; rewrite e in fO.
  by move=> h /negbTE e; rewrite inE; apply/eqP => -[e']; rewrite e' eqxx in e.
rewrite C95_char //.
have sk : skipped truthy [:: (KFlag f, yes); (KFlag g, no)] = index f [:: FLookup; FGUF; FILP; FMWPM; FBF; FLSD].
  apply: eq_find => h; rewrite /= /GetDecoder.tget /get /=.
  by case: f {tk lt fO tf}; case: g; case: h => //=; rewrite ?ty ?tn.
have -> : chosen truthy nb [:: (KFlag f, yes); (KFlag g, no)] = f.
  by rewrite /chosen sk; case: f fO {tk lt tf sk}.
have -> : left_over truthy nb [:: (KFlag f, yes); (KFlag g, no)] = [:: (KFlag g, no)].
  by rewrite /left_over sk; move: lt fO; clear; case: f; case: g; case: nb.
by rewrite /= tk.
Qed.

(* and asking for the BP+OSD decoder by its name raises a TypeError when the matrix is over another field than GF(2) *)
Theorem C95_BP_OSD_refuted (a : kwargs val) : rate_ok -> KFlag FOSD \in keys a -> KConstructor \notin keys a ->
  KStatic \notin keys a -> (forall g, g != FOSD -> KFlag g \notin keys a) -> get_decoder true a = Raises _ TypeErr.
Proof.
move=> hr hO h1 h2 hg; rewrite C95_char ?tget_none //.
have sk : skipped truthy a = 6 by rewrite /skipped /= !tget_none // hg.
have -> : chosen truthy true a = FGUF by rewrite /chosen sk.
case: allP => // all_; suff /all_ : KFlag FOSD \in keys (left_over truthy true a) by [].
have kF (L : seq key) : keys [seq x <- a | x.1 \notin L] = [seq k <- keys a | k \notin L] by rewrite /keys filter_map.
by rewrite /left_over sk kF mem_filter hO.
Qed.
End Props.

(* non-vacuity: objects are numbers, 0 is false; error rates and channels are accepted by the external decoders *)
Definition ex_acc (f : flag) (k : key) : bool := k \in [:: KRate; KChannel; KOther 0].
Notation gd := (GetDecoder.get_decoder (fun v : nat => 0 < v) (fun v => v == 7) (fun v => v == 8) 3 ex_acc).
Example C95_ex : [/\ rate_ok ex_acc,
  gd false [:: (KWeight, 2); (KFlag FLookup, 1)] = Built FLookup [:: (KWeight, 2)] /\ gd true [:: (KFlag FGUF, 1)] = Built FGUF [::],
  gd false [:: (KFlag FLookup, 0); (KFlag FBF, 1); (KOther 0, 5)] = Built FBF [:: (KOther 0, 5); (KRate, 3)] /\ gd false [:: (KFlag FOSD, 1); (KChannel, 5)] = Built FOSD [:: (KChannel, 5)],
  gd true [:: (KFlag FOSD, 1)] = Raises _ TypeErr /\ gd false [:: (KFlag FLookup, 1); (KFlag FGUF, 0)] = Raises _ TypeErr
  & gd false [:: (KConstructor, 7); (KFlag FBF, 1)] = Called 7 [:: (KFlag FBF, 1)] /\ gd true [:: (KStatic, 8)] = Static 8].
Proof. by split; [by case | | | | ]. Qed.

Print Assumptions C95_given.
Print Assumptions C95_char.
Print Assumptions C95_single_partial.
Print Assumptions C95_default.
Print Assumptions C95_false_flag_refuted.
Print Assumptions C95_BP_OSD_refuted.
