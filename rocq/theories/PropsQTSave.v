(* C55, C56: comparing, saving and loading quantum Tanner codes (qldpc/codes/quantum.py:1145-1153, 1244-1304). *)
From Coq Require Import String Ascii List ZArith Lia Bool.
From Verif Require Import Text QTSave.
Import ListNotations.
Open Scope string_scope.

(* two small codes: C2 x C2 acting on four points, with local codes of length two *)
Definition d1 : qtdata := QT [[1; 0; 2; 3]; [0; 1; 2; 3]]%Z [[0; 1; 3; 2]; [0; 1; 2; 3]]%Z [[1; 1]]%Z [[1; 2]]%Z 3 true.
Definition d2 : qtdata := QT [[1; 0; 2; 3]; [0; 1; 2; 3]]%Z [[0; 1; 3; 2]; [0; 1; 2; 3]]%Z [[1; 0]; [0; 1]]%Z [[1; 2]]%Z 3 false.

(* C55: QTCode.__eq__ separates quantum Tanner codes from other objects, and codes with the same data are equal ... *)
Theorem C55_reflexive d : qt_eq d (Some d) = true /\ qt_eq d None = false.
Proof.
  split; [ | reflexivity ]. unfold qt_eq, code_eq, set_eq. rewrite !Z.eqb_refl, !eqb_reflx.
  assert (h : forall l, forallb (fun x => existsb (fun y => if list_eq_dec Z.eq_dec x y then true else false) l) l = true).
  { intros l. apply forallb_forall. intros x hx. apply existsb_exists. exists x. split; trivial.
    destruct (list_eq_dec Z.eq_dec x x); congruence. }
  rewrite !h. destruct (list_eq_dec _ _ _); [ | congruence ]. destruct (list_eq_dec _ _ _); [ | congruence ]. reflexivity.
Qed.
(* ... but any two quantum Tanner codes are equal, whatever their subsets, local codes, fields and flags *)
Theorem C55_refuted : (forall d d', qt_eq d (Some d') = true) /\
  exists d d', qt_eq d (Some d') = true /\ qt_ma d <> qt_ma d' /\ qt_bip d <> qt_bip d'.
Proof.
  split.
  - intros d d'. exact (proj1 (C55_reflexive d')).
  - exists d1, d2. repeat split; discriminate.
Qed.

(* C56: for all header texts, and all subsets and matrices that have at least one row and one column, the file that was saved is
   read back as the same subsets, matrices, field order and flag *)
Theorem C56_round_trip headers d :
  (forall m, In m [qt_a d; qt_b d; qt_ma d; qt_mb d] -> m <> [] /\ exists n, n <> 0 /\ forall r, In r m -> length r = n) ->
  load (save headers d) = Some d.
Proof.
  intros h.
  assert (h' : forall m, In m [qt_a d; qt_b d; qt_ma d; qt_mb d] -> array m).
  { intros m hm. destruct (h m hm) as [h1 [n [h2 h3]]]. split; trivial. exists n. split; trivial. now apply Forall_forall. }
  apply save_load; apply h'; simpl; auto.
Qed.
Example C56_round_trip_ex : load (save ["a header
of two lines: # 1 2"; ""] d1) = Some d1 /\ load (save [] d2) = Some d2.
Proof. split; vm_compute; reflexivity. Qed.
Example C56_hypothesis_ex : forall m, In m [qt_a d2; qt_b d2; qt_ma d2; qt_mb d2] -> m <> [] /\ exists n, n <> 0 /\ forall r, In r m -> length r = n.
Proof.
  intros m hm. simpl in hm. decompose [or] hm; subst; try easy; split; try discriminate.
  all: first [ exists 4; split; [ discriminate | ]; intros r hr; simpl in hr; decompose [or] hr; subst; (reflexivity || easy)
             | exists 2; split; [ discriminate | ]; intros r hr; simpl in hr; decompose [or] hr; subst; (reflexivity || easy) ].
Qed.

(* C56: a code one of whose local codes has no parity checks can be saved, but not loaded again *)
Theorem C56_no_checks_refuted headers : exists d, qt_a d = qt_a d1 /\ qt_b d = qt_b d1 /\ qt_ma d = qt_ma d1 /\ qt_mb d = [] /\
  load (save headers d) = None.
Proof.
  exists (QT (qt_a d1) (qt_b d1) (qt_ma d1) [] 3 true). repeat split.
  apply no_checks; repeat split; try discriminate.
  - exists 4. split; [ discriminate | ]. repeat constructor.
  - exists 4. split; [ discriminate | ]. repeat constructor.
  - exists 2. split; [ discriminate | ]. repeat constructor.
Qed.

Print Assumptions C55_reflexive.
Print Assumptions C55_refuted.
Print Assumptions C56_round_trip.
Print Assumptions C56_no_checks_refuted.
