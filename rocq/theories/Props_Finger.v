(** Property theorems C67 (crate ragu_circuits: routine fingerprints). *)
From Coq Require Import List Arith NArith ZArith Bool Lia.
From Verif Require Import FieldDef GF ArithModel ArithSpec ArithProofs SparseModel CircModel CircSpec CircProofs
  FingerModel FingerSpec FingerProofs Props_Arith Props_Circ.
Import ListNotations.
Local Open Scope nat_scope.

(** ** The records of a circuit: the root without an identity, then one record per call of a
    routine, each determined by the routine's number of inputs and its own calls. *)
Theorem C67_records : forall (F : Field) (x0 x1 x2 x3 y one h : F) (body : prog F) (outs : list wref) g c d segs,
  metrics_eval F x0 x1 x2 x3 y one h body outs = Some (g, c, d, segs) ->
  segs = mk_srec F (fst (scope_size (orchestrate body outs))) (snd (scope_size (orchestrate body outs))) None
         :: records x0 x1 x2 x3 y one h body.
Proof. exact metrics_records. Qed.
Print Assumptions C67_records.

(** ** A routine fingerprinted on its own has the identity it has in every circuit. *)
Theorem C67_standalone : forall (F : Field) (x0 x1 x2 x3 y one h : F) (nin : nat) (body : prog F),
  fingerprint_routine F x0 x1 x2 x3 y one h nin body = Some (routine_id x0 x1 x2 x3 y one h nin body).
Proof. intros. apply standalone_G. apply Nat.le_refl. Qed.
Print Assumptions C67_standalone.

(** ** Witness values, predictions and the callers' wires do not matter. *)
Lemma same_refl {F : Field} (p : prog F) : same_calls p p.
Proof. induction p; constructor; auto. Qed.
Lemma same_app {F : Field} (p p' q : prog F) : same_calls p p' -> same_calls (prog_app p q) (prog_app p' q).
Proof. induction 1; cbn [prog_app]; try (constructor; auto; fail). apply same_refl. Qed.
Theorem C67_values : forall (F : Field) (x0 x1 x2 x3 y one h : F) (p p' : prog F), same_calls p p' ->
  (forall nin, fingerprint_routine F x0 x1 x2 x3 y one h nin p = fingerprint_routine F x0 x1 x2 x3 y one h nin p') /\
  (forall outs, metrics_eval F x0 x1 x2 x3 y one h p outs = metrics_eval F x0 x1 x2 x3 y one h p' outs).
Proof.
  intros F x0 x1 x2 x3 y one h p p' H. split.
  - intros nin. rewrite !C67_standalone, (same_id F p p' x0 x1 x2 x3 y one h nin H). reflexivity.
  - intros outs.
    assert (Ho : same_calls (orchestrate p outs) (orchestrate p' outs)) by (constructor; apply same_app, H).
    destruct (metrics_ok F x0 x1 x2 x3 y one h p outs) as (s & E & C).
    destruct (metrics_ok F x0 x1 x2 x3 y one h p' outs) as (s' & E' & C').
    assert (Z : sizes (orchestrate p outs) = sizes (orchestrate p' outs)).
    { unfold sizes. rewrite (same_size F _ _ Ho). f_equal.
      rewrite <- !(records_cnt F x0 x1 x2 x3 y one h), (same_records F _ _ x0 x1 x2 x3 y one h Ho). reflexivity. }
    rewrite E, E', Z. do 2 f_equal.
    rewrite (C67_records _ _ _ _ _ _ _ _ _ _ _ _ _ _ E), (C67_records _ _ _ _ _ _ _ _ _ _ _ _ _ _ E').
    rewrite (same_size F _ _ Ho), (same_records F p p' x0 x1 x2 x3 y one h H). reflexivity.
Qed.
Print Assumptions C67_values.

(** ** Routines whose constraints differ are told apart: if two fingerprints agree for all
    choices from large enough sets of constants, the routines have the same sizes, the same
    number of constraints, and the same coefficients in every constraint. *)
Theorem C67_distinct : forall (F : Field) (nin nin' : nat) (body body' : prog F) (X0 X1 X2 X3 Y O H : list F),
  let G := Nat.max (routine_reach nin body) (routine_reach nin' body') in
  let fs := routine_forms nin body in
  let fs' := routine_forms nin' body' in
  NoDup X0 -> NoDup X1 -> NoDup X2 -> NoDup X3 -> NoDup Y -> NoDup O -> NoDup H ->
  G < length X0 -> G < length X1 -> G < length X2 -> G < length X3 ->
  Nat.max (length fs) (length fs') < length Y -> 2 <= length O -> 2 <= length H ->
  (forall x0 x1 x2 x3 y one h, In x0 X0 -> In x1 X1 -> In x2 X2 -> In x3 X3 -> In y Y -> In one O -> In h H ->
     fingerprint_routine F x0 x1 x2 x3 y one h nin body = fingerprint_routine F x0 x1 x2 x3 y one h nin' body') ->
  scope_size body = scope_size body' /\ length fs = length fs' /\
  forall j s, j < length fs -> nth j fs (fun _ => f0) s = nth j fs' (fun _ => f0) s.
Proof.
  intros F nin nin' body body' X0 X1 X2 X3 Y O H G fs fs' N0 N1 N2 N3 NY NO NH L0 L1 L2 L3 LY LO LH E.
  assert (Ne : forall (l : list F) n, n < length l -> exists a, In a l) by (intros [|a l] n Q; [simpl in Q; lia|exists a; left; reflexivity]).
  destruct (Ne _ _ L0) as [a0 A0], (Ne _ _ L1) as [a1 A1], (Ne _ _ L2) as [a2 A2], (Ne _ _ L3) as [a3 A3],
    (Ne _ _ LO) as [o Ao], (Ne _ _ LH) as [hh Ah], (Ne _ _ LY) as [yy Ay].
  assert (Es : forall x0 x1 x2 x3 y one h, In x0 X0 -> In x1 X1 -> In x2 X2 -> In x3 X3 -> In y Y -> In one O -> In h H ->
    scalar x0 x1 x2 x3 y one h G fs = scalar x0 x1 x2 x3 y one h G fs').
  { intros. specialize (E x0 x1 x2 x3 y one h). rewrite (standalone_G F x0 x1 x2 x3 y one h nin body G) in E by apply Nat.le_max_l.
    rewrite (standalone_G F x0 x1 x2 x3 y one h nin' body' G) in E by apply Nat.le_max_r.
    assert (Q := E ltac:(assumption) ltac:(assumption) ltac:(assumption) ltac:(assumption) ltac:(assumption) ltac:(assumption) ltac:(assumption)).
    unfold fs, fs'. congruence. }
  assert (Lf : length fs = length fs').
  { destruct (Nat.lt_trichotomy (length fs) (length fs')) as [Q|[Q|Q]]; [exfalso|exact Q|exfalso].
    - apply (sep_len F a0 a1 a2 a3 o G fs fs' H Y Q NH LH NY ltac:(lia)). intros h y Ih Iy. apply Es; assumption.
    - apply (sep_len F a0 a1 a2 a3 o G fs' fs H Y Q NH LH NY ltac:(lia)). intros h y Ih Iy. symmetry. apply Es; assumption. }
  split; [|split; [exact Lf|]].
  - specialize (E a0 a1 a2 a3 yy o hh A0 A1 A2 A3 Ay Ao Ah). rewrite !C67_standalone in E. unfold routine_id in E.
    rewrite (surjective_pairing (scope_size body)), (surjective_pairing (scope_size body')). f_equal; congruence.
  - intros j s Hj.
    destruct (sep_x F X0 X1 X2 X3 O G (nth j fs (fun _ => f0)) (nth j fs' (fun _ => f0)) N0 N1 N2 N3 NO L0 L1 L2 L3 LO) as [S1 S2].
    { intros x0 x1 x2 x3 one I0 I1 I2 I3 IO.
      apply (sep_y F x0 x1 x2 x3 one hh G fs fs' Y Lf NY ltac:(lia)); [|exact Hj].
      intros y Iy. apply Es; assumption. }
    destruct s as [|k i]; [exact S1|]. destruct (Nat.lt_ge_cases i G) as [L|L]; [apply S2, L|].
    unfold fs, fs'. rewrite (supp_routine F nin body j k i) by lia. rewrite (supp_routine F nin' body' j k i) by lia. reflexivity.
Qed.
Print Assumptions C67_distinct.

(** ** Conversely, routines with these in common are never told apart. *)
Theorem C67_equal : forall (F : Field) (nin nin' : nat) (body body' : prog F),
  let fs := routine_forms nin body in
  let fs' := routine_forms nin' body' in
  scope_size body = scope_size body' -> length fs = length fs' ->
  (forall j s, j < length fs -> nth j fs (fun _ => f0) s = nth j fs' (fun _ => f0) s) ->
  forall x0 x1 x2 x3 y one h,
    fingerprint_routine F x0 x1 x2 x3 y one h nin body = fingerprint_routine F x0 x1 x2 x3 y one h nin' body'.
Proof.
  intros F nin nin' body body' fs fs' Z L H x0 x1 x2 x3 y one h.
  set (G := Nat.max (routine_reach nin body) (routine_reach nin' body')).
  rewrite (standalone_G F x0 x1 x2 x3 y one h nin body G) by apply Nat.le_max_l.
  rewrite (standalone_G F x0 x1 x2 x3 y one h nin' body' G) by apply Nat.le_max_r.
  rewrite Z. do 3 f_equal. apply scalar_ext; assumption.
Qed.
Print Assumptions C67_equal.

(** ** At one choice of the other constants: if a constraint has different values in two
    routines with m constraints each, fewer than m values of y collide; if the numbers of
    constraints differ, at most one seed collides for each y that tells the numbers apart. *)
Theorem C67_collisions : forall (F : Field) (x0 x1 x2 x3 one : F) (nin nin' : nat) (body body' : prog F),
  let G := Nat.max (routine_reach nin body) (routine_reach nin' body') in
  let fs := routine_forms nin body in
  let fs' := routine_forms nin' body' in
  (forall h j ys, length fs = length fs' -> j < length fs ->
     form_at x0 x1 x2 x3 one G (nth j fs (fun _ => f0)) <> form_at x0 x1 x2 x3 one G (nth j fs' (fun _ => f0)) -> NoDup ys ->
     (forall y, In y ys -> fingerprint_routine F x0 x1 x2 x3 y one h nin body = fingerprint_routine F x0 x1 x2 x3 y one h nin' body') ->
     length ys < length fs) /\
  (forall y h h', fpow y (length fs) <> fpow y (length fs') ->
     fingerprint_routine F x0 x1 x2 x3 y one h nin body = fingerprint_routine F x0 x1 x2 x3 y one h nin' body' ->
     fingerprint_routine F x0 x1 x2 x3 y one h' nin body = fingerprint_routine F x0 x1 x2 x3 y one h' nin' body' -> h = h').
Proof.
  intros F x0 x1 x2 x3 one nin nin' body body' G fs fs'.
  assert (S : forall y h, fingerprint_routine F x0 x1 x2 x3 y one h nin body = fingerprint_routine F x0 x1 x2 x3 y one h nin' body' ->
            scalar x0 x1 x2 x3 y one h G fs = scalar x0 x1 x2 x3 y one h G fs').
  { intros y h E. rewrite (standalone_G F x0 x1 x2 x3 y one h nin body G) in E by apply Nat.le_max_l.
    rewrite (standalone_G F x0 x1 x2 x3 y one h nin' body' G) in E by apply Nat.le_max_r. unfold fs, fs'. congruence. }
  split.
  - intros h j ys L Hj D N E. destruct (Nat.lt_ge_cases (length ys) (length fs)) as [Q|Q]; [exact Q|exfalso].
    apply D. apply (sep_y F x0 x1 x2 x3 one h G fs fs' ys L N Q); [|exact Hj]. intros y Hy. apply S, E, Hy.
  - intros y h h' D E E'. exact (sep_h F x0 x1 x2 x3 y one G fs fs' h h' D (S _ _ E) (S _ _ E')).
Qed.
Print Assumptions C67_collisions.

(** ** What is compared: the types of the input and output, the counts, and the low 64 bits
    of the scalar. *)
Theorem C67_compare : forall (F : Field) (repr : F -> N) (ik ok ik' ok' : N) (e e' : F) (g c g' c' : nat),
  rfp_eqb (fp_of F repr ik ok e g c) (fp_of F repr ik' ok' e' g' c') = true <->
  ik = ik' /\ ok = ok' /\ g = g' /\ c = c' /\ forall b, (b < 64)%N -> N.testbit (repr e) b = N.testbit (repr e') b.
Proof.
  intros F repr ik ok ik' ok' e e' g c g' c'. unfold rfp_eqb, fp_of. cbn [rf_in rf_out rf_eval rf_gates rf_cons].
  rewrite !andb_true_iff, !N.eqb_eq, !Nat.eqb_eq.
  assert (B : N.modulo (repr e) (2 ^ 64) = N.modulo (repr e') (2 ^ 64) <->
              forall b, (b < 64)%N -> N.testbit (repr e) b = N.testbit (repr e') b).
  { split.
    - intros E b Hb. rewrite <- (N.mod_pow2_bits_low (repr e) 64 b Hb), E. apply N.mod_pow2_bits_low, Hb.
    - intros Q. apply N.bits_inj. intros b. destruct (N.lt_ge_cases b 64) as [L|L].
      + rewrite !N.mod_pow2_bits_low by exact L. apply Q, L.
      + rewrite !N.mod_pow2_bits_high by exact L. reflexivity. }
  rewrite B. tauto.
Qed.
Print Assumptions C67_compare.

(** ** Examples: a routine called twice, with another one inside *)
Definition fx_inner {F : Field} (v k : F) : prog F :=
  PMul v f1 v (PEnforce [LAdd (WVar 0); LTerm (WVar 1) (CArb k)] PEnd).
Definition fx_body {F : Field} (v k : F) : prog F :=
  PAlloc v (PRoutine true [WVar 4] (fx_inner v k) [WVar 3]
  (PRoutine false [WVar 5] (PAlloc f1 (PEnforce [LSub (WVar 1); LAdd WOne] (PRoutine true [WVar 1] (fx_inner v k) [WVar 1] PEnd))) [WVar 1] PEnd)).
Lemma fx_same (F : Field) (v v' k : F) : same_calls (fx_body v k) (fx_body v' k).
Proof. unfold fx_body, fx_inner. repeat constructor. Qed.
Definition fx_eval (p : prog F97) := metrics_eval F97 (l97 2) (l97 3) (l97 5) (l97 7) (l97 11) (l97 13) (l97 17) p [WVar 4].
(** the inner routine: the seed times y, the b wire of gate 0 (its input), k times the a wire of gate 1 *)
Example C67_ex :
  match fx_eval (fx_body (l97 6) (l97 4)) with
  | Some (_, _, _, segs) => map (fun s => option_map (fun i => v97 (fst (fst i))) (sr_id F97 s)) segs
  | None => []
  end = [None; Some (v97 (l97 (17 * 11 + 3 + 4 * 2 ^ 2))); Some (v97 (l97 (17 * 11 + 13 - 9))); Some (v97 (l97 (17 * 11 + 3 + 4 * 2 ^ 2)))]%Z.
Proof. vm_compute. reflexivity. Qed.
Example C67_ex_values : same_calls (fx_body (l97 6) (l97 4)) (fx_body (l97 80) (l97 4)) /\ v97 (l97 6) <> v97 (l97 80).
Proof. split; [apply fx_same|vm_compute; discriminate]. Qed.
(** a different coefficient gives a different scalar *)
Example C67_ex_coeff : fingerprint_routine F97 (l97 2) (l97 3) (l97 5) (l97 7) (l97 11) (l97 13) (l97 17) 1 (fx_inner (l97 6) (l97 4))
  <> fingerprint_routine F97 (l97 2) (l97 3) (l97 5) (l97 7) (l97 11) (l97 13) (l97 17) 1 (fx_inner (l97 6) (l97 5)).
Proof. intros E. apply (f_equal (option_map (fun i => v97 (fst (fst i))))) in E. vm_compute in E. discriminate. Qed.
(** the premises of [C67_distinct] are met: a multiplication and a gate with an unused d wire *)
Definition fx_mul {F : Field} (v : F) : prog F :=
  PMul v f1 v (PEnforce [LAdd (WVar 1); LTerm (WVar 2) CTwo] PEnd).
Definition fx_gate {F : Field} (v : F) : prog F :=
  PGate v f1 v f0 (PEnforce [LTerm (WVar 2) CTwo; LAdd (WVar 1)] PEnd).
Section Ex.
  Variable F : Field.
  Add Field FFu32 : (f_theory F).
  Lemma fx_forms (v w : F) s : nth 0 (routine_forms 1 (fx_mul v)) (fun _ => f0) s = nth 0 (routine_forms 1 (fx_gate w)) (fun _ => f0) s.
  Proof.
    cbn. unfold lc_form, lin_spec, gains, lprod, unit_form. cbn.
    destruct s as [|[| | |] [|[|i]]]; cbn; ring.
  Qed.
End Ex.
Example C67_ex_distinct : forall (F : Field) (v w : F),
  let A := fx_mul v in
  let B := fx_gate w in
  A <> B /\ Nat.max (routine_reach 1 A) (routine_reach 1 B) = 2 /\
  Nat.max (length (routine_forms 1 A)) (length (routine_forms 1 B)) = 1 /\
  (forall x0 x1 x2 x3 y one h, fingerprint_routine F x0 x1 x2 x3 y one h 1 A = fingerprint_routine F x0 x1 x2 x3 y one h 1 B).
Proof.
  intros F v w A B. split; [discriminate|]. split; [reflexivity|]. split; [reflexivity|].
  intros. rewrite !C67_standalone. unfold routine_id.
  assert (E : scalar x0 x1 x2 x3 y one h (routine_reach 1 A) (routine_forms 1 A) = scalar x0 x1 x2 x3 y one h (routine_reach 1 B) (routine_forms 1 B)).
  { change (routine_reach 1 A) with 2. change (routine_reach 1 B) with 2. unfold scalar. cbv zeta.
    change (length (routine_forms 1 A)) with 1. change (length (routine_forms 1 B)) with 1. f_equal. apply (fsum_ext F). intros [|j] Hj; [|lia].
    f_equal. apply at_ext. intros s. apply fx_forms. }
  rewrite E. reflexivity.
Qed.
Example C67_ex_grid : NoDup (map v97 (map l97 [1; 2; 3]%Z)) /\ 2 < length (map l97 [1; 2; 3]%Z).
Proof. split; [vm_compute; repeat constructor; cbn; intuition congruence|cbn; lia]. Qed.
(** 2^64 + 5 and 5 compare equal, 6 and 5 do not *)
Example C67_ex_compare :
  let f (n : N) := rfp_eqb (fp_of F97 (fun _ => n) 3 4 (l97 1) 2 1) (fp_of F97 (fun _ => 5%N) 3 4 (l97 2) 2 1) in
  f (2 ^ 64 + 5)%N = true /\ f 6%N = false.
Proof. split; reflexivity. Qed.

(** ** Equal fingerprints do not make routines structurally equivalent (metrics.rs:31-33): the
    output of a nested routine takes the place that a local allocation has elsewhere.  The two
    routines of tests/identity.rs:723-747 and 1021-1038 have one fingerprint for all constants;
    the first calls another routine and forces its input to be zero, the second does neither. *)
(** tests/identity.rs SquareOnce: element.rs:148-169 *)
Definition square_once {F : Field} (v : F) : prog F :=
  PMul v v (fmul v v) (PEnforce [LAdd (WVar 1); LSub (WVar 0)] (PEnforce [LAdd (WVar 2); LSub (WVar 0)] PEnd)).
(** tests/identity.rs:723-747 DelegatePadEnforceOutput *)
Definition delegate_pad {F : Field} (v : F) : prog F :=
  PRoutine false [WVar 0] (square_once v) [WVar 3] (PAlloc f0 (PEnforce [LAdd (WVar 1)] PEnd)).
(** tests/identity.rs:1021-1038 InternalEnforce *)
Definition internal_enforce {F : Field} : prog F := PAlloc f0 (PEnforce [LAdd (WVar 1)] PEnd).
(** the constraints of a routine and of the routines below it hold for input value x, and so do
    all gates *)
Definition holds_at {F : Field} (val : nat -> kind -> nat -> F) (body : prog F) (x : F) : Prop :=
  let r := sem val body 1 2 0 None [x] in
  Forall (fun e => e = f0) (sm_own r) /\ Forall (Forall (fun e => e = f0)) (sm_subs r) /\
  forall s i, fmul (val s KA i) (val s KB i) = val s KC i /\ fmul (val s KC i) (val s KD i) = f0.
Section Refuted.
  Variable F : Field.
  Add Field FFu35 : (f_theory F).
  Open Scope f_scope.
  Lemma pad_forces val v (x : F) : holds_at val (delegate_pad v) x -> x = f0.
  Proof.
    unfold holds_at, delegate_pad, square_once. cbn [sem sm_own sm_subs sm_env app map lookup nth length Nat.add].
    intros (Ho & Hs & Hg). apply Forall_inv in Ho. apply Forall_inv in Hs.
    assert (H1 := Forall_inv Hs). assert (H2 := Forall_inv (Forall_inv_tail Hs)). clear Hs.
    specialize (Hg 2%nat 0%nat). destruct Hg as [Hg _].
    unfold lc_val, lin_spec, gains, lprod in *. cbn in *.
    assert (A : val 2%nat KA 0%nat = x). { transitivity (x + f0); [rewrite <- H1; ring|ring]. }
    assert (B : val 2%nat KB 0%nat = x). { transitivity (x + f0); [rewrite <- H2; ring|ring]. }
    assert (C : val 2%nat KC 0%nat = f0). { rewrite <- Ho. ring. }
    rewrite A, B, C in Hg. destruct (fmul_integral F x x Hg); assumption.
  Qed.
  Lemma internal_free (x : F) : holds_at (fun _ _ _ => f0) internal_enforce x.
  Proof.
    unfold holds_at, internal_enforce. cbn [sem sm_own sm_subs sm_env app map lookup nth length Nat.add].
    split; [|split; [constructor|intros; split; ring]].
    constructor; [|constructor]. unfold lc_val, lin_spec, gains, lprod. cbn. ring.
  Qed.
  Lemma pad_holds (v : F) : holds_at (fun _ _ _ => f0) (delegate_pad v) f0.
  Proof.
    unfold holds_at, delegate_pad, square_once. cbn [sem sm_own sm_subs sm_env app map lookup nth length Nat.add].
    split; [|split; [|intros; split; ring]].
    - constructor; [|constructor]. unfold lc_val, lin_spec, gains, lprod. cbn. ring.
    - constructor; [|constructor].
      constructor; [|constructor; [|constructor]]; unfold lc_val, lin_spec, gains, lprod; cbn; ring.
  Qed.
  Lemma pad_forms (v : F) s : nth O (routine_forms 1%nat (delegate_pad v)) (fun _ => f0) s = nth O (routine_forms 1%nat internal_enforce) (fun _ => f0) s.
  Proof. reflexivity. Qed.
End Refuted.
Theorem C67_structure_refuted : forall (F : Field) (v : F),
  (forall x0 x1 x2 x3 y one h,
     fingerprint_routine F x0 x1 x2 x3 y one h 1 (delegate_pad v) = fingerprint_routine F x0 x1 x2 x3 y one h 1 internal_enforce) /\
  (forall x0 x1 x2 x3 y one h,
     length (records x0 x1 x2 x3 y one h (delegate_pad v)) = 1 /\ length (records x0 x1 x2 x3 y one h (@internal_enforce F)) = 0) /\
  (forall val (x : F), holds_at val (delegate_pad v) x -> x = f0) /\
  (forall x : F, exists val, holds_at val internal_enforce x).
Proof.
  intros F v. split; [|split; [|split]].
  - apply C67_equal; [reflexivity|reflexivity|]. intros [|j] s Hj; [apply pad_forms|cbn in Hj; lia].
  - intros. split; reflexivity.
  - intros val x. apply pad_forces.
  - intros x. eexists. apply internal_free.
Qed.
Print Assumptions C67_structure_refuted.
(** the first routine does hold at its one input, so the third part is not empty *)
Example C67_ex_structure : forall (F : Field) (v : F), holds_at (fun _ _ _ => f0) (delegate_pad v) f0.
Proof. exact pad_holds. Qed.
