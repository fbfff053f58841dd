(* Pauli strings with phases, and stabilizer tableaus as stim keeps them: the images of the single-qubit X and Z operators. *)
From mathcomp Require Import all_ssreflect all_algebra ring.
Set Implicit Arguments.
Unset Strict Implicit.
Unset Printing Implicit Defensive.
Import GRing.Theory.
Local Open Scope ring_scope.

(* External (stim): a Pauli string with its phase, i^s X_0^x0 Z_0^z0 X_1^x1 Z_1^z1 ...; (x, z) = (true, true) stands for XZ = -i Y *)
Definition pq : Type := (bool * bool)%type.
Definition pqadd (a b : pq) : pq := (a.1 (+) b.1, a.2 (+) b.2).
Definition padd (u v : seq pq) : seq pq := [seq pqadd p.1 p.2 | p <- zip u v].
Definition spauli : Type := ('Z_4 * seq pq)%type.
Definition tw (b : bool) : 'Z_4 := if b then 2%:R else 0.
(* the sign of moving the Z operators of u past the X operators of v *)
Fixpoint cross (u v : seq pq) : bool :=
  match u, v with a :: u', b :: v' => (a.2 && b.1) (+) cross u' v' | _, _ => false end.
Definition pm (p q : spauli) : spauli := (p.1 + q.1 + tw (cross p.2 q.2), padd p.2 q.2).
Definition sympl (u v : seq pq) : bool := cross u v (+) cross v u.
Definition pI : pq := (false, false).
Definition pone (n : nat) : spauli := (0, nseq n pI).
(* External (stim): PauliString.sign, as a power of i *)
Fixpoint ycount (u : seq pq) : 'Z_4 := if u is a :: u' then (a.1 && a.2)%:R + ycount u' else 0.
Definition psign (p : spauli) : 'Z_4 := p.1 - ycount p.2.
Definition herm (p : spauli) : bool := psign p + psign p == 0.
(* External (stim): Tableau, Tableau.__call__, Tableau.then and the identity *)
Definition tableau : Type := seq (spauli * spauli).
Definition ppow (n : nat) (b : bool) (p : spauli) : spauli := if b then p else pone n.
Fixpoint papply (n : nat) (t : tableau) (u : seq pq) : spauli :=
  match t, u with h :: t', a :: u' => pm (pm (ppow n a.1 h.1) (ppow n a.2 h.2)) (papply n t' u') | _, _ => pone n end.
Definition pph (s : 'Z_4) (p : spauli) : spauli := (s + p.1, p.2).
Definition tapply (n : nat) (t : tableau) (p : spauli) : spauli := pph p.1 (papply n t p.2).
Definition tthen (n : nat) (t1 t2 : tableau) : tableau := [seq (tapply n t2 h.1, tapply n t2 h.2) | h <- t1].
Definition single (n k : nat) (a : pq) : seq pq := nseq k pI ++ a :: nseq (n - k.+1) pI.
Definition opx (n k : nat) : spauli := (0, single n k (true, false)).
Definition opz (n k : nat) : spauli := (0, single n k (false, true)).
Definition tid (n : nat) : tableau := [seq (opx n k, opz n k) | k <- iota 0 n].
(* a valid tableau: Hermitian images with the commutation relations of the operators they replace *)
Fixpoint tval (n : nat) (t : tableau) : bool :=
  if t is h :: t' then
    [&& size h.1.2 == n, size h.2.2 == n, herm h.1 && herm h.2, sympl h.1.2 h.2.2,
        all (fun k => ~~ [|| sympl h.1.2 k.1.2, sympl h.1.2 k.2.2, sympl h.2.2 k.1.2 | sympl h.2.2 k.2.2]) t' & tval n t']
  else true.
(* External (stim): Tableau.inverse; the bits of the image of p are read off its commutation relations, and its phase is that for which the image
   is sent back to p *)
Definition pinv (n : nat) (t : tableau) (p : spauli) : spauli :=
  let u := [seq (sympl p.2 h.2.2, sympl p.2 h.1.2) | h <- t] in (p.1 - (papply n t u).1, u).
Definition tinv (n : nat) (t : tableau) : tableau := [seq (pinv n t (opx n k), pinv n t (opz n k)) | k <- iota 0 n].
(* External (stim): a tableau of a product of Pauli gates *)
Definition tpauli (n : nat) (u : seq pq) : tableau :=
  [seq (pph (tw (sympl u (opx n k).2)) (opx n k), pph (tw (sympl u (opz n k).2)) (opz n k)) | k <- iota 0 n].

(* ---------------------------------------------------------------------- multiplication *)
Lemma tw2 b : tw b + tw b = 0. Proof. by case: b; apply: val_inj. Qed.
Lemma twD a b : tw (a (+) b) = tw a + tw b. Proof. by case: a; case: b; rewrite /tw ?addr0 ?add0r //; apply: val_inj. Qed.
Lemma tw_inj a b : tw a = tw b -> a = b. Proof. by case: a; case: b => // /(congr1 val). Qed.
Lemma two_b (b : bool) : (b%:R + b%:R : 'Z_4) = tw b. Proof. by case: b; apply: val_inj. Qed.
Lemma size_padd u v : size u = size v -> size (padd u v) = size u.
Proof. by move=> e; rewrite size_map size_zip e minnn. Qed.
Lemma paddA u v w : padd u (padd v w) = padd (padd u v) w.
Proof. by elim: u v w => [|a u IH] [|b v] [|c w] //=; rewrite /padd /= -!/(padd _ _) IH /pqadd /= !addbA. Qed.
Lemma paddC u v : padd u v = padd v u.
Proof. by elim: u v => [|a u IH] [|b v] //=; rewrite /padd /= -!/(padd _ _) IH /pqadd addbC [a.2 (+) _]addbC. Qed.
Lemma padd0 n u : size u = n -> padd u (nseq n pI) = u.
Proof. by elim: u n => [|[x z] u IH] [|n] //= [e]; rewrite /padd /= -/(padd _ _) IH // /pqadd /= !addbF. Qed.
Lemma paddu u : padd u u = nseq (size u) pI.
Proof. by elim: u => [|[x z] u IH] //=; rewrite /padd /= -/(padd _ _) IH /pqadd /= !addbb. Qed.
Lemma cross_addl u v w : size u = size v -> size v = size w -> cross (padd u v) w = cross u w (+) cross v w.
Proof.
elim: u v w => [|a u IH] [|b v] [|c w] //= [e1] [e2]; rewrite /padd /= -/(padd _ _) IH //.
by rewrite andb_addl !addbA; congr (_ (+) _); rewrite -!addbA; congr (_ (+) _); rewrite addbC.
Qed.
Lemma cross_addr u v w : size u = size v -> size v = size w -> cross u (padd v w) = cross u v (+) cross u w.
Proof.
elim: u v w => [|a u IH] [|b v] [|c w] //= [e1] [e2]; rewrite /padd /= -/(padd _ _) IH //.
by rewrite andb_addr !addbA; congr (_ (+) _); rewrite -!addbA; congr (_ (+) _); rewrite addbC.
Qed.
Lemma cross0 u n : cross u (nseq n pI) = false.
Proof. by elim: u n => [|a u IH] [|n] //=; rewrite andbF IH. Qed.
Lemma cross0l u n : cross (nseq n pI) u = false.
Proof. by elim: u n => [|a u IH] [|n] //=. Qed.
Lemma symplC u v : sympl u v = sympl v u. Proof. by rewrite /sympl addbC. Qed.
Lemma symplD u v w : size u = size v -> size v = size w -> sympl (padd u v) w = sympl u w (+) sympl v w.
Proof.
move=> e1 e2; rewrite /sympl cross_addl // cross_addr ?e1 ?e2 //.
by rewrite -!addbA; congr (_ (+) _); rewrite !addbA; congr (_ (+) _); rewrite addbC.
Qed.
Lemma sympl0 u n : sympl u (nseq n pI) = false. Proof. by rewrite /sympl cross0 cross0l. Qed.
Lemma symplu u : sympl u u = false. Proof. by rewrite /sympl addbb. Qed.

Lemma pmA p q r : size p.2 = size q.2 -> size q.2 = size r.2 -> pm p (pm q r) = pm (pm p q) r.
Proof.
move=> e1 e2; rewrite /pm /= paddA cross_addr // cross_addl // !twD; congr (_, _); ring.
Qed.
Lemma pm1 n p : size p.2 = n -> pm p (pone n) = p.
Proof. by case: p => s u /= e; rewrite /pm /= padd0 // cross0 !addr0. Qed.
Lemma pm1l n p : size p.2 = n -> pm (pone n) p = p.
Proof. by case: p => s u /= e; rewrite /pm /= paddC padd0 // cross0l add0r addr0. Qed.
Lemma size_pm p q : size p.2 = size q.2 -> size (pm p q).2 = size p.2. Proof. exact: size_padd. Qed.
Lemma pmC p q : pm p q = pph (tw (sympl p.2 q.2)) (pm q p).
Proof.
rewrite /pm /pph /= paddC /sympl twD; congr (_, _).
have -> : forall a b c e : 'Z_4, c + e + (b + a + e) = a + b + c + (e + e) by move=> a b c e; ring.
by rewrite tw2 addr0.
Qed.
Lemma pm_ph s p q : pm (pph s p) q = pph s (pm p q). Proof. by rewrite /pm /pph /= !addrA. Qed.
Lemma pm_phr s p q : pm p (pph s q) = pph s (pm p q). Proof. by rewrite /pm /pph /=; congr (_, _); ring. Qed.
Lemma pphD s t p : pph s (pph t p) = pph (s + t) p. Proof. by rewrite /pph /= addrA. Qed.
Lemma pph0 p : pph 0 p = p. Proof. by case: p => s u; rewrite /pph add0r. Qed.
Lemma pph_inj s t p : pph s p = pph t p -> s = t. Proof. by move/(congr1 fst) => /= /addIr. Qed.
Lemma ycount2 u : ycount u + ycount u = tw (cross u u).
Proof. by elim: u => [|a u IH] /=; rewrite ?addr0 // addrACA IH two_b -twD andbC. Qed.
Lemma herm_sq p : herm p = (pm p p == pone (size p.2)).
Proof.
rewrite /herm /psign /pm /pone paddu xpair_eqE eqxx andbT -ycount2; congr (_ == _).
have -> : p.1 - ycount p.2 + (p.1 - ycount p.2) = p.1 + p.1 - (ycount p.2 + ycount p.2) by ring.
by rewrite ycount2; congr (_ + _); case: (cross _ _); apply: val_inj.
Qed.
Lemma herm_ph p b : herm p -> herm (pph (tw b) p).
Proof.
rewrite /herm /psign /pph /= => /eqP h; apply/eqP; rewrite -[RHS](tw2 b) -[RHS]addr0 -[X in _ = _ + X]h.
ring.
Qed.

(* -------------------------------------------------------------------- tableaus *)
Section Tab.
Variable n : nat.
Lemma size_ppow b p : size p.2 = n -> size (ppow n b p).2 = n.
Proof. by case: b => //= _; rewrite size_nseq. Qed.
Lemma tval_cons h t : tval n (h :: t) -> [/\ size h.1.2 = n, size h.2.2 = n, herm h.1 /\ herm h.2, sympl h.1.2 h.2.2 & tval n t].
Proof. by case/and5P => /eqP -> /eqP -> /andP [-> ->] -> /andP [_ h']; split. Qed.
Lemma size_papply t u : tval n t -> size (papply n t u).2 = n.
Proof.
elim: t u => [|h t IH] [|a u]; rewrite ?size_nseq // => v; have [s1 s2 _ _ vt] := tval_cons v.
have e1 := size_ppow a.1 s1; have e2 := size_ppow a.2 s2; have e3 := IH u vt.
by rewrite /= size_padd size_padd ?e1 ?e2 ?e3.
Qed.
Lemma size_tapply t p : tval n t -> size (tapply n t p).2 = n. Proof. exact: size_papply. Qed.
Lemma sympl_ppow b p v : ~~ sympl p.2 v -> ~~ sympl (ppow n b p).2 v.
Proof. by case: b => //= _; rewrite symplC sympl0. Qed.
(* an operator that commutes with all images commutes with all their products *)
Lemma sympl_papply t u w : tval n t -> size w = n -> all (fun k => ~~ (sympl w k.1.2 || sympl w k.2.2)) t -> ~~ sympl w (papply n t u).2.
Proof.
move=> + sw; elim: t u => [|h t IH] [|a u]; rewrite ?sympl0 // => v; have [s1 s2 _ _ vt] := tval_cons v.
case/andP => /norP [h1 h2] ha; rewrite /= symplC !symplD ?size_padd ?size_ppow ?size_papply ?sw //.
rewrite [sympl (papply _ _ _).2 w]symplC (negbTE (IH _ vt ha)) addbF.
have -> : sympl (ppow n a.1 h.1).2 w = false by apply/negbTE/sympl_ppow; rewrite symplC.
by rewrite addFb; apply: sympl_ppow; rewrite symplC.
Qed.
(* a valid tableau preserves products *)
Lemma pm4 x x' z z' A B X Z : size A.2 = n -> size B.2 = n -> size X.2 = n -> size Z.2 = n -> herm X -> herm Z -> sympl X.2 Z.2 ->
  ~~ sympl X.2 A.2 -> ~~ sympl Z.2 A.2 ->
  pm (pm (pm (ppow n x X) (ppow n z Z)) A) (pm (pm (ppow n x' X) (ppow n z' Z)) B) =
  pph (tw (z && x')) (pm (pm (ppow n (x (+) x') X) (ppow n (z (+) z') Z)) (pm A B)).
Proof.
move=> sA sB sX sZ hX hZ sXZ cX cZ.
have cA b b' : pm A (pm (ppow n b X) (ppow n b' Z)) = pm (pm (ppow n b X) (ppow n b' Z)) A.
  rewrite pmC /= symplC symplD ?size_ppow ?sA //.
  by rewrite (negbTE (sympl_ppow b cX)) (negbTE (sympl_ppow b' cZ)) pph0.
have sW b b' : size (pm (ppow n b X) (ppow n b' Z)).2 = n by rewrite size_pm ?size_ppow.
set W := pm (ppow n x X) _; set W' := pm (ppow n x' X) _; have s1 : size W.2 = n := sW _ _; have s2 : size W'.2 = n := sW _ _.
have -> : pm (pm W A) (pm W' B) = pm (pm W W') (pm A B).
  have cW : pm A W' = pm W' A := cA _ _; move: (W) (W') s1 s2 cW => P Q s1 s2 cW.
  have a1 : size (pm Q B).2 = n by rewrite size_pm ?s2. have a2 : size (pm A B).2 = n by rewrite size_pm ?sA.
  by rewrite -(@pmA P A (pm Q B)) ?s1 ?sA ?a1 // (@pmA A Q B) ?sA ?s2 ?sB // cW -(@pmA Q A B) ?sA ?s2 ?sB // (@pmA P Q (pm A B)) ?s1 ?s2 ?a2.
rewrite -pm_ph; congr (pm _ _); rewrite /W /W' {W W' s1 s2}.
have PP P b b' : size P.2 = n -> herm P -> pm (ppow n b P) (ppow n b' P) = ppow n (b (+) b') P.
  move=> sP; rewrite herm_sq sP => /eqP e; have s11 : size (pone n).2 = n := size_nseq n pI.
  by case: b; case: b' => //=; rewrite ?(pm1l sP) ?(pm1 sP) ?(pm1 s11).
have ZX : pm (ppow n z Z) (ppow n x' X) = pph (tw (z && x')) (pm (ppow n x' X) (ppow n z Z)).
  rewrite pmC; congr (pph (tw _) _); case: z; case: x' => /=; rewrite ?sympl0 ?[sympl (nseq _ _) _]symplC ?sympl0 //.
  by rewrite symplC.
have e0 b P : size P.2 = n -> size (ppow n b P).2 = n by exact: size_ppow.
rewrite -(@pmA (ppow n x X)) ?sW ?e0 // (@pmA (ppow n z Z)) ?e0 // ZX pm_ph pm_phr; congr (pph _ _).
by rewrite -(@pmA (ppow n x' X)) ?e0 // PP // (@pmA (ppow n x X)) ?e0 // PP.
Qed.
Lemma papplyM t u v : tval n t -> size u = size t -> size v = size t ->
  pm (papply n t u) (papply n t v) = pph (tw (cross u v)) (papply n t (padd u v)).
Proof.
elim: t u v => [|h t IH] [|a u] [|b v] //=.
  by move=> _ _ _; rewrite pph0 pm1 // size_nseq.
move=> vh [su] [sv]; have [s1 s2 [h1 h2] h12 vt] := tval_cons vh.
have hc : all (fun k => ~~ (sympl h.1.2 k.1.2 || sympl h.1.2 k.2.2)) t /\ all (fun k => ~~ (sympl h.2.2 k.1.2 || sympl h.2.2 k.2.2)) t.
  case/and5P: vh => _ _ _ _ /andP [/allP hh _].
  by split; apply/allP => k /hh /norP [h3 /norP [h4 /norP [h5 h6]]]; apply/norP.
rewrite pm4 ?size_papply // ?sympl_papply ?(hc.1) ?(hc.2) // IH // pm_phr pphD -twD /=.
by [].
Qed.
Lemma tapplyM t p q : tval n t -> size p.2 = size t -> size q.2 = size t -> tapply n t (pm p q) = pm (tapply n t p) (tapply n t q).
Proof.
move=> vt sp sq; rewrite /tapply pm_ph pm_phr papplyM // /pm /= !pphD; congr (pph _ _); ring.
Qed.
Lemma papply1 t m : tval n t -> papply n t (nseq m pI) = pone n.
Proof.
elim: t m => [|h t IH] [|m] // v; have [s1 s2 _ _ vt] := tval_cons v; rewrite /= (IH _ vt) !pm1 //; by rewrite /= size_nseq.
Qed.
Lemma tapply_ph t s p : tapply n t (pph s p) = pph s (tapply n t p). Proof. by rewrite /tapply pphD. Qed.
(* ... and commutation relations and Hermitian operators *)
Lemma sympl_tapply t p q : tval n t -> size p.2 = size t -> size q.2 = size t ->
  sympl (tapply n t p).2 (tapply n t q).2 = sympl p.2 q.2.
Proof.
move=> vt sp sq; apply: tw_inj; apply: (@pph_inj _ _ (pm (tapply n t q) (tapply n t p))).
by rewrite -pmC -!tapplyM // pmC tapply_ph.
Qed.
Lemma herm_tapply t p : tval n t -> size p.2 = size t -> herm p -> herm (tapply n t p).
Proof.
move=> vt sp; rewrite !herm_sq -tapplyM // => /eqP ->; rewrite sp size_tapply // /tapply papply1 //.
by rewrite pph0.
Qed.
Lemma tval_then t1 t2 : tval n t1 -> tval n t2 -> size t2 = n -> tval n (tthen n t1 t2).
Proof.
move=> + v2 s2; elim: t1 => [|h t IH] // v; have [e1 e2 [h1 h2] h12 vt] := tval_cons v.
rewrite /= !size_tapply // !herm_tapply ?s2 // !eqxx sympl_tapply ?s2 // h12 IH //= andbT all_map.
have sz : all (fun k => (size k.1.2 == n) && (size k.2.2 == n)) t.
  by elim: t vt {IH v} => [|k t IH] // v; have [f1 f2 _ _ vt] := tval_cons v; rewrite /= f1 f2 !eqxx IH.
case/and5P: v => _ _ _ _ /andP [/allP hh _]; apply/allP => k hk; have := hh k hk.
have /andP [/eqP k1 /eqP k2] := allP sz _ hk; by rewrite /= !sympl_tapply ?s2.
Qed.
Lemma papply_then t1 t2 u : tval n t1 -> tval n t2 -> size t2 = n -> papply n (tthen n t1 t2) u = tapply n t2 (papply n t1 u).
Proof.
move=> + v2 s2; elim: t1 u => [|h t IH] [|a u] // v; try by rewrite /tapply papply1 ?pph0.
have [e1 e2 _ _ vt] := tval_cons v.
have pp b p : size p.2 = n -> ppow n b (tapply n t2 p) = tapply n t2 (ppow n b p).
  by case: b => // _; rewrite /tapply papply1 ?pph0.
by rewrite /= IH // !pp // !tapplyM ?size_pm ?size_ppow ?size_papply ?s2.
Qed.
Lemma tapply_then t1 t2 p : tval n t1 -> tval n t2 -> size t2 = n -> tapply n (tthen n t1 t2) p = tapply n t2 (tapply n t1 p).
Proof. by move=> v1 v2 s2; rewrite {1}/tapply papply_then // -tapply_ph. Qed.
(* the identity *)
Lemma size_single k a : (k < n)%N -> size (single n k a) = n.
Proof. by move=> hk; rewrite size_cat /= !size_nseq -addSnnS subnKC. Qed.
Lemma cross_pre m s t : cross (nseq m pI ++ s) (nseq m pI ++ t) = cross s t. Proof. by elim: m => //= m ->. Qed.
Lemma padd_cat u u' v v' : size u = size v -> padd (u ++ u') (v ++ v') = padd u v ++ padd u' v'.
Proof. by move=> e; rewrite /padd zip_cat // map_cat. Qed.
Lemma padd_nseq m : padd (nseq m pI) (nseq m pI) = nseq m pI. Proof. by rewrite paddu size_nseq. Qed.
Lemma pm_pre m a b s t : pm (a, nseq m pI ++ s) (b, nseq m pI ++ t) = (a + b + tw (cross s t), nseq m pI ++ padd s t).
Proof. by rewrite /pm /= cross_pre padd_cat // padd_nseq. Qed.
Lemma padd_cons a b u v : padd (a :: u) (b :: v) = pqadd a b :: padd u v. Proof. by []. Qed.
Lemma single0 k : (k < n)%N -> single n k pI = nseq n pI.
Proof. by move=> hk; rewrite /single -[pI :: _]/(nseq (n - k.+1).+1 pI) -nseqD -subSn // subSS subnKC // ltnW. Qed.
Lemma ppow_x k b : (k < n)%N -> ppow n b (opx n k) = (0, single n k (b, false)).
Proof. by move=> hk; case: b => //=; rewrite /pone -(single0 hk). Qed.
Lemma ppow_z k b : (k < n)%N -> ppow n b (opz n k) = (0, single n k (false, b)).
Proof. by move=> hk; case: b => //=; rewrite /pone -(single0 hk). Qed.
Lemma papply_tid_gen m u : (m + size u = n)%N -> papply n [seq (opx n k, opz n k) | k <- iota m (size u)] u = (0, nseq m pI ++ u).
Proof.
elim: u m => [|[x z] u IH] m /=; first by rewrite addn0 cats0 => ->.
rewrite -addSnnS => e; have hm : (m < n)%N by rewrite -e leq_addr.
have su : size u = (n - m.+1)%N by rewrite -e addKn.
rewrite IH // ppow_x // ppow_z // /single (_ : nseq m.+1 pI ++ u = nseq m pI ++ (pI :: u)); last by rewrite -addn1 nseqD -catA.
rewrite pm_pre padd_cons padd_nseq pm_pre padd_cons [padd (nseq _ _) u]paddC padd0 //.
by rewrite /= !cross0l !andbF /pqadd /= !addbF !addr0.
Qed.
Lemma papply_tid u : size u = n -> papply n (tid n) u = (0, u).
Proof. by move=> su; have := @papply_tid_gen 0 u; rewrite su; apply. Qed.
Lemma tapply_tid p : size p.2 = n -> tapply n (tid n) p = p.
Proof. by case: p => s u /= su; rewrite /tapply papply_tid // /pph addr0. Qed.
Definition tsgn (u : seq pq) (t : tableau) : tableau := [seq (pph (tw (sympl u h.1.2)) h.1, pph (tw (sympl u h.2.2)) h.2) | h <- t].
Lemma papply_sgn u t v : size u = n -> tval n t -> papply n (tsgn u t) v = pph (tw (sympl u (papply n t v).2)) (papply n t v).
Proof.
move=> su; elim: t v => [|h t IH] [|a v] vt; try by rewrite /= sympl0 pph0.
have [s1 s2 _ _ vt'] := tval_cons vt.
have pp b p : size p.2 = n -> ppow n b (pph (tw (sympl u p.2)) p) = pph (tw (sympl u (ppow n b p).2)) (ppow n b p).
  by case: b => // _; rewrite /= sympl0 pph0.
have z := size_papply v vt'.
rewrite [LHS]/= IH // !pp // !pm_ph !pm_phr pm_ph !pphD [papply n (h :: t) _]/= ; congr (pph _ _).
have s3 := size_ppow a.1 s1; have s4 := size_ppow a.2 s2.
by rewrite ![sympl u _]symplC /= !symplD ?size_padd ?s3 ?s4 ?z ?su // !twD addrAC.
Qed.
Lemma size_tid : size (tid n) = n. Proof. by rewrite size_map size_iota. Qed.
Lemma sympl_single k l a b : (k < n)%N -> (l < n)%N -> sympl (single n k a) (single n l b) = (k == l) && ((a.2 && b.1) (+) (b.2 && a.1)).
Proof.
have cs m j x y : cross (nseq m pI ++ x :: nseq j pI) (nseq m pI ++ y) = (if y is y0 :: _ then x.2 && y0.1 else false).
  rewrite cross_pre; case: y => [|y0 y] //=; by rewrite cross0l addbF.
have cs' m j x y : cross (nseq m pI ++ y) (nseq m pI ++ x :: nseq j pI) = (if y is y0 :: _ then y0.2 && x.1 else false).
  rewrite cross_pre; case: y => [|y0 y] //=; by rewrite cross0 addbF.
move=> hk hl; rewrite /sympl; case: (ltngtP k l) => [lt|gt|<-] /=; last by rewrite /single !cs.
  have -> : single n l b = nseq k pI ++ pI :: nseq (l - k.+1) pI ++ b :: nseq (n - l.+1) pI.
    by rewrite /single -{1}(subnKC lt) nseqD -addn1 nseqD -!catA.
  by rewrite /single cs cs' andbF.
have -> : single n k a = nseq l pI ++ pI :: nseq (k - l.+1) pI ++ a :: nseq (n - k.+1) pI.
  by rewrite /single -{1}(subnKC gt) nseqD -addn1 nseqD -!catA.
by rewrite /single cs cs' andbF.
Qed.
Lemma ycount_single k a : ~~ (a.1 && a.2) -> ycount (single n k a) = 0.
Proof.
have y0 m : ycount (nseq m pI) = 0 by elim: m => //= m ->; rewrite addr0.
by move=> ha; rewrite /single; elim: k (n - k.+1)%N => [|k IH] m /=; rewrite ?(negbTE ha) ?y0 ?IH add0r.
Qed.
Lemma tval_tid_gen (f : nat -> spauli * spauli) m j : (forall i, (i < n)%N -> size (f i).1.2 = n /\ size (f i).2.2 = n) ->
  (forall i, (i < n)%N -> herm (f i).1 /\ herm (f i).2) ->
  (forall i l, (i < n)%N -> (l < n)%N -> [/\ sympl (f i).1.2 (f l).1.2 = false, sympl (f i).2.2 (f l).2.2 = false, sympl (f i).1.2 (f l).2.2 = (i == l)
     & sympl (f i).2.2 (f l).1.2 = (i == l)]) -> (m + j <= n)%N -> tval n [seq f i | i <- iota m j].
Proof.
move=> hs hh hc; elim: j m => [|j IH] m //; rewrite -addSnnS => e; have hm : (m < n)%N by apply: leq_trans e; rewrite leq_addr.
have [s1 s2] := hs m hm; have [h1 h2] := hh m hm; have [_ _ c3 _] := hc m m hm hm.
apply/and5P; split; rewrite ?s1 ?s2 ?h1 ?h2 ?c3 //; rewrite -/(tval n [seq f i | i <- iota m.+1 j]) IH // andbT.
apply/allP => _ /mapP [i + ->]; rewrite mem_iota => /andP [mi ij].
have hi : (i < n)%N by apply: leq_trans ij e.
have [-> -> -> ->] := hc m i hm hi; by rewrite (ltn_eqF mi).
Qed.
Lemma tval_tid : tval n (tid n).
Proof.
apply: tval_tid_gen => // i.
- by move=> hi; rewrite /= !size_single.
- by move=> hi; rewrite /herm /psign /opx /opz !ycount_single // !subr0 addr0.
- by move=> l hi hl; rewrite /= !sympl_single //= andbF andbT.
Qed.
Lemma tpauli_sgn u : tpauli n u = tsgn u (tid n). Proof. by rewrite /tpauli /tsgn /tid -map_comp. Qed.
Lemma tapply_tpauli u p : size u = n -> size p.2 = n -> tapply n (tpauli n u) p = pph (tw (sympl u p.2)) p.
Proof.
move=> su sp; rewrite /tapply tpauli_sgn papply_sgn ?tval_tid // papply_tid // pphD addrC -pphD; congr (pph _ _).
by case: p {sp} => s v; rewrite /pph addr0.
Qed.
Lemma size_tpauli u : size (tpauli n u) = n. Proof. by rewrite size_map size_iota. Qed.
Lemma tval_tpauli u : size u = n -> tval n (tpauli n u).
Proof.
move=> su; apply: tval_tid_gen => // i.
- by move=> hi; rewrite /= !size_single.
- by move=> hi; split; apply: herm_ph; rewrite /herm /psign /opx /opz !ycount_single // !subr0 addr0.
- by move=> l hi hl; rewrite /= !sympl_single //= andbF andbT.
Qed.
(* rows are images *)
Lemma tval_catl t1 t2 : tval n (t1 ++ t2) -> tval n t1.
Proof.
elim: t1 => //= h t IH /and5P [-> -> -> -> /andP []]; rewrite all_cat => /andP [-> _] /IH ->; by [].
Qed.
Lemma tval_catr t1 t2 : tval n (t1 ++ t2) -> tval n t2.
Proof. by elim: t1 => //= h t IH /and5P [_ _ _ _ /andP [_ /IH]]. Qed.
Lemma tval_take k t : tval n t -> tval n (take k t). Proof. by rewrite -{1}(cat_take_drop k t) => /tval_catl. Qed.
Lemma tval_drop k t : tval n t -> tval n (drop k t). Proof. by rewrite -{1}(cat_take_drop k t) => /tval_catr. Qed.
Lemma papply_cat t1 t2 u1 u2 : tval n (t1 ++ t2) -> size u1 = size t1 -> papply n (t1 ++ t2) (u1 ++ u2) = pm (papply n t1 u1) (papply n t2 u2).
Proof.
elim: t1 u1 => [|h t IH] [|a u] //= v; first by move=> _; rewrite pm1l // size_papply.
case=> su; have [s1 s2 _ _ vt] := tval_cons v; have v1 := tval_catl vt; have v2 := tval_catr vt.
by rewrite IH // pmA ?size_papply // ?size_pm ?size_ppow // size_papply.
Qed.
Lemma tval_row t k : tval n t -> (k < size t)%N -> let h := nth (pone n, pone n) t k in
  [/\ size h.1.2 = n, size h.2.2 = n, herm h.1, herm h.2 & sympl h.1.2 h.2.2].
Proof.
move=> v hk /=; have := tval_drop k v; rewrite (drop_nth (pone n, pone n) hk) => v'.
by have [? ? [? ?] ? _] := tval_cons v'.
Qed.
Lemma papply_single t k a : tval n t -> size t = n -> (k < n)%N -> let h := nth (pone n, pone n) t k in
  papply n t (single n k a) = pm (ppow n a.1 h.1) (ppow n a.2 h.2).
Proof.
move=> v st hk /=; have hk' : (k < size t)%N by rewrite st.
have [s1 s2 _ _ _] := tval_row v hk'; set h := nth _ t k in s1 s2 *.
have e : t = take k t ++ h :: drop k.+1 t by rewrite -drop_nth ?cat_take_drop.
have sk : size (take k t) = k by rewrite size_takel // ltnW.
rewrite e in v; have v1 := tval_catl v; have v2 := tval_catr v; have [_ _ _ _ v3] := tval_cons v2.
have z : size (pm (ppow n a.1 h.1) (ppow n a.2 h.2)).2 = n by rewrite size_pm ?size_ppow.
rewrite {1}e /single papply_cat ?size_nseq ?sk // papply1 // pm1l ?size_papply //= papply1 // pm1 //.
Qed.
Lemma tapply_opx t k : tval n t -> size t = n -> (k < n)%N -> tapply n t (opx n k) = (nth (pone n, pone n) t k).1.
Proof.
move=> v st hk; rewrite /tapply papply_single // pph0 /=; have [s1 _ _ _ _] := tval_row v (etrans (congr1 _ st) hk).
by rewrite pm1.
Qed.
Lemma tapply_opz t k : tval n t -> size t = n -> (k < n)%N -> tapply n t (opz n k) = (nth (pone n, pone n) t k).2.
Proof.
move=> v st hk; rewrite /tapply papply_single // pph0 /=; have [_ s1 _ _ _] := tval_row v (etrans (congr1 _ st) hk).
by rewrite pm1l.
Qed.
(* the inverse *)
Lemma nth_sympl u k : size u = n -> (k < n)%N -> (sympl u (single n k (false, true)), sympl u (single n k (true, false))) = nth pI u k.
Proof.
move=> su hk; have hk' : (k < size u)%N by rewrite su.
have e : u = take k u ++ nth pI u k :: drop k.+1 u by rewrite -drop_nth ?cat_take_drop.
have sk : size (take k u) = k by rewrite size_takel // ltnW.
have cc (v v' w w' : seq pq) : size v = size w -> cross (v ++ v') (w ++ w') = cross v w (+) cross v' w'.
  by elim: v w => [|b v IH] [|c w] //= [e']; rewrite IH // addbA.
rewrite {1 2}e /sympl /single !cc ?size_nseq ?sk //= !cross0 !cross0l !andbF !andbT !addbF.
by case: (nth _ _ _).
Qed.
Lemma pinvK t p : tval n t -> size t = n -> size p.2 = n -> pinv n t (tapply n t p) = p.
Proof.
move=> v st sp; case: p sp => s u /= su; rewrite /pinv.
have -> : [seq (sympl (tapply n t (s, u)).2 h.2.2, sympl (tapply n t (s, u)).2 h.1.2) | h <- t] = u.
  apply: (@eq_from_nth _ pI); rewrite size_map st ?su // => k hk.
  rewrite (nth_map (pone n, pone n)) ?st // -tapply_opx // -tapply_opz // !sympl_tapply ?st ?size_single //.
  exact: nth_sympl.
by rewrite /tapply /= addrK.
Qed.
Lemma pinv_bits t (u : n.-tuple pq) : tval n t -> size (papply n t u).2 == n. Proof. by move=> v; rewrite size_papply. Qed.
Lemma papply_onto t w : tval n t -> size t = n -> size w = n -> exists u, size u = n /\ (papply n t u).2 = w.
Proof.
move=> v st sw; pose f (u : n.-tuple pq) : n.-tuple pq := Tuple (pinv_bits u v).
have fi : injective f.
  move=> a b /(congr1 val) /= e; apply: val_inj => /=.
  have ea := @pinvK t (0, a : seq pq) v st (size_tuple a); have eb := @pinvK t (0, b : seq pq) v st (size_tuple b).
  have := congr1 snd ea; have := congr1 snd eb; rewrite /pinv /tapply /= e => h1 h2; exact: etrans (esym h2) h1.
have [g _ gK] := injF_bij fi; pose w' : n.-tuple pq := Tuple (introT eqP sw).
by exists (g w'); split; [exact: size_tuple | exact: (congr1 val (gK w'))].
Qed.
Lemma tapply_onto t p : tval n t -> size t = n -> size p.2 = n -> exists q, size q.2 = n /\ tapply n t q = p.
Proof.
move=> v st sp; have [u [su eu]] := papply_onto v st sp; exists (p.1 - (papply n t u).1, u); split => //.
by rewrite /tapply /pph /= subrK eu -surjective_pairing.
Qed.
Lemma size_pinv t p : size t = n -> size (pinv n t p).2 = n. Proof. by move=> st; rewrite /= size_map. Qed.
Lemma tapplyK t p : tval n t -> size t = n -> size p.2 = n -> tapply n t (pinv n t p) = p.
Proof. by move=> v st sp; have [q [sq <-]] := tapply_onto v st sp; rewrite pinvK. Qed.
Lemma tapply_inj t p q : tval n t -> size t = n -> size p.2 = n -> size q.2 = n -> tapply n t p = tapply n t q -> p = q.
Proof. by move=> v st sp sq e; rewrite -(pinvK v st sp) e pinvK. Qed.
Lemma sympl_pinv t p q : tval n t -> size t = n -> size p.2 = n -> size q.2 = n -> sympl (pinv n t p).2 (pinv n t q).2 = sympl p.2 q.2.
Proof.
move=> v st sp sq; rewrite -(@sympl_tapply t) ?st ?size_pinv //; by rewrite !tapplyK.
Qed.
Lemma herm_pinv t p : tval n t -> size t = n -> size p.2 = n -> herm p -> herm (pinv n t p).
Proof.
move=> v st sp; rewrite !herm_sq size_pinv // sp => /eqP e; apply/eqP/(@tapply_inj t) => //.
- by rewrite size_pm size_pinv.
- by rewrite size_nseq.
- by rewrite tapplyM ?size_pinv ?st // tapplyK // e /tapply papply1 ?pph0.
Qed.
Lemma tval_tinv t : tval n t -> size t = n -> tval n (tinv n t).
Proof.
move=> v st; apply: tval_tid_gen => // i.
- by move=> hi; rewrite !size_pinv.
- by move=> hi; split; apply: herm_pinv; rewrite ?size_single //; rewrite /herm /psign /opx /opz !ycount_single // !subr0 addr0.
- by move=> l hi hl; rewrite !sympl_pinv ?size_single //= !sympl_single //= andbF andbT.
Qed.
Lemma size_tinv t : size (tinv n t) = n. Proof. by rewrite size_map size_iota. Qed.
Lemma tthen_tinv t : tval n t -> size t = n -> tthen n (tinv n t) t = tid n.
Proof.
move=> v st; rewrite /tthen /tinv /tid -map_comp; apply/eq_in_map => k; rewrite mem_iota add0n => /andP [_ hk].
by rewrite /= !tapplyK ?size_single.
Qed.
Lemma tinvE t p : tval n t -> size t = n -> size p.2 = n -> tapply n (tinv n t) p = pinv n t p.
Proof.
move=> v st sp; have vi := tval_tinv v st; apply: (tapply_inj v st); rewrite ?size_tapply ?size_pinv //.
by rewrite tapplyK // -tapply_then // tthen_tinv // tapply_tid.
Qed.
(* an operator that commutes with everything is trivial *)
Lemma comm0 t w : tval n t -> size t = n -> size w = n -> (forall k, (k < n)%N -> let h := nth (pone n, pone n) t k in
   sympl w h.1.2 = false /\ sympl w h.2.2 = false) -> w = nseq n pI.
Proof.
move=> v st sw hw; have := @tapplyK t (0, w) v st sw; rewrite /pinv /=.
have -> : [seq (sympl w h.2.2, sympl w h.1.2) | h <- t] = nseq n pI.
  apply: (@eq_from_nth _ pI); rewrite size_map st ?size_nseq // => k hk.
  by rewrite (nth_map (pone n, pone n)) ?st // nth_nseq hk; have [-> ->] := hw k hk.
by rewrite /tapply papply1 // => /(congr1 snd).
Qed.
End Tab.
(* images of a set of bit strings closed under products *)
Lemma papply_closed n t u (P : pred (seq pq)) : P (nseq n pI) -> (forall v w, size v = n -> size w = n -> P v -> P w -> P (padd v w)) ->
  tval n t -> all (fun h => P h.1.2 && P h.2.2) t -> P (papply n t u).2.
Proof.
move=> P0 PD; elim: t u => [|h t IH] [|a u] // v /= /andP [/andP [p1 p2] pt]; have [s1 s2 _ _ vt] := tval_cons v.
have pp b p : P p.2 -> P (ppow n b p).2 by case: b.
by apply: (PD _ _); rewrite ?size_papply ?size_padd ?size_ppow ?IH //; apply: (PD _ _); rewrite ?size_ppow // pp.
Qed.
(* a map that preserves commutation relations preserves valid tableaus *)
Lemma tval_map n m (f : spauli -> spauli) (P : pred spauli) t : (forall p q, P p -> P q -> sympl (f p).2 (f q).2 = sympl p.2 q.2) ->
  (forall p, P p -> herm p -> herm (f p)) -> (forall p, P p -> size p.2 = n -> size (f p).2 = m) ->
  all (fun h => P h.1 && P h.2) t -> tval n t -> tval m [seq (f h.1, f h.2) | h <- t].
Proof.
move=> fc fh fs; elim: t => [|h t IH] // /= /andP [/andP [p1 p2] pt] v; have [s1 s2 [h1 h2] h12 vt] := tval_cons v.
rewrite !fs // !fh // !eqxx fc // h12 IH //= all_map andbT.
case/and5P: v => _ _ _ _ /andP [/allP hh _]; apply/allP => k hk; have := hh k hk; have /andP [q1 q2] := allP pt k hk.
by rewrite /= !fc.
Qed.
