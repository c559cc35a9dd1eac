(** Endoscaling of many points (C29). *)
From Coq Require Import List Arith NArith ZArith Bool Lia Ring Field.
From Verif Require Import FieldDef ModDef GF ArithModel GadgetModel GadgetSpec GadgetProofs PointSpec PointProofs EndoSpec EndoProofs PointExample FoldModel FoldProofs EscModel EscSpec EscProofs Props_Gadget.
Import ListNotations.
Local Open Scope nat_scope.

(** The ranges of the steps, taken in order, list every input index once; every
    range is non-empty and has at most four elements. *)
Theorem C29_cover : forall num_points k, 2 <= num_points -> num_steps num_points = Some k ->
  exists ranges, map (input_range num_points) (seq 0 k) = map Some ranges /\
    concat ranges = seq 0 (num_points - 1) /\ Forall (fun r => 1 <= length r <= 4) ranges.
Proof.
  intros [|i] k H2 Hk; [lia|]. destruct (num_steps_ok i k Hk) as (K1 & K2 & K3 & K4). specialize (K4 ltac:(lia)).
  exists (map (fun j => seq (4 * j) (Nat.min 4 (i - 4 * j))) (seq 0 k)). split; [|split].
  - rewrite map_map. apply map_ext. intros j. apply range_ok.
  - replace (S i - 1) with i by lia.
    assert (G : forall m, m <= k -> concat (map (fun j => seq (4 * j) (Nat.min 4 (i - 4 * j))) (seq 0 m)) = seq 0 (Nat.min (4 * m) i)).
    { induction m as [|m IH]; intros Hm; [reflexivity|]. rewrite seq_S, map_app, concat_app, IH by lia. cbn [Nat.add map concat]. rewrite app_nil_r.
      replace (Nat.min (4 * m) i) with (4 * m) by lia. rewrite <- (seq_app (4 * m) _ 0). f_equal. lia. }
    rewrite G by lia. f_equal. lia.
  - apply Forall_forall. intros r Hr. apply in_map_iff in Hr. destruct Hr as (j & <- & Hj). apply in_seq in Hj. rewrite seq_length. lia.
Qed.
Print Assumptions C29_cover.

(** Building the witness succeeds exactly for the declared number of points; the
    j-th interstitial accumulates the initial point and the inputs of the steps up
    to j, the last one all points. *)
Theorem C29_witness : forall (Fs : Field) (E : FMod Fs) num_points (s : Fs) (points : list E),
  match points_new num_points s points with
  | None => length points <> num_points \/ num_points = 0
  | Some w =>
      length points = num_points /\ points = pw_initial w :: pw_inputs w /\
      num_steps num_points = Some (length (pw_interstitials w)) /\
      (forall j d, j < length (pw_interstitials w) ->
        nth j (pw_interstitials w) d = partial_combo s (pw_initial w) (pw_inputs w) (4 * S j)) /\
      last (pw_interstitials w) m0 = combo s points
  end.
Proof.
  intros Fs E P s pts. destruct (Nat.eq_dec (length pts) P) as [HL|HL].
  - destruct P as [|i].
    + destruct pts; [|discriminate]. cbn. auto.
    + assert (exists k, num_steps (S i) = Some k) as (k & Hk) by (unfold num_steps, inputs_len; eauto).
      destruct (points_new_ok (S i) s pts k HL Hk) as (p0 & ins & ints & -> & -> & Lk & Hn).
      cbn [pw_initial pw_inputs pw_interstitials]. destruct (num_steps_ok i k Hk) as (K1 & K2 & K3 & K4). rewrite Lk.
      repeat apply conj; auto. cbn [length] in HL.
      assert (ints <> []) by (destruct ints; cbn in Lk; [lia|discriminate]).
      assert (LN : forall (l : list E), l <> [] -> last l m0 = nth (length l - 1) l m0).
      { intros l Hl. destruct (exists_last Hl) as (l' & x & ->). rewrite last_last, app_length, app_nth2 by (cbn; lia). cbn [length].
        replace (length l' + 1 - 1 - length l') with 0 by lia. reflexivity. }
      rewrite (LN ints H), Lk, Hn by lia. apply partial_all. lia.
  - unfold points_new. rewrite (proj2 (Nat.eqb_neq _ _) HL). cbn. auto.
Qed.
Print Assumptions C29_witness.

Section Lift.
  Variables (F Fs : Field) (lambda : Fs).
  Lemma lift_eq n v : Nat.even n = true ->
    lift_bits Fs lambda (map (nbit v) (seq 0 n)) (fadd (fadd lambda f1) (fadd lambda f1)) = lift_native Fs lambda n v.
  Proof.
    intros Ev. rewrite lift_native_sum, <- lift_bits_lift_sum. do 3 f_equal.
    apply Nat.even_spec in Ev. destruct Ev as (k & ->). rewrite (Nat.mul_comm 2 k), Nat.div_mul by lia. lia.
  Qed.
End Lift.

Section Steps.
Open Scope f_scope.
(** All the step circuits of two or more points together: given non-identity initial
    and input points and any field pairs as interstitials, they are all satisfied
    exactly when no addition meets equal or opposite points and every interstitial
    holds the coordinates of its partial accumulation. *)
Theorem C29_steps : forall (F Fs : Field) (b zeta : F) (lambda : Fs) (E : CurveGroup F Fs b zeta lambda) n v i k (P0 : E) (ins : list E) p0 qs (ints : list (F * F)),
  (1 + 1 : F) <> 0 -> lambda * lambda + lambda + 1 = 0 -> Nat.even n = true ->
  (forall m, (0 < m < (3 * 2 ^ (n / 2)) * (3 * 2 ^ (n / 2)))%nat -> fnat m <> (0 : Fs)) ->
  (0 < i)%nat -> length ins = i -> num_steps (S i) = Some k -> length ints = k ->
  cg_aff _ _ _ _ _ E P0 = Some p0 -> map (cg_aff _ _ _ _ _ E) ins = map Some qs ->
  let s := lift_native Fs lambda n v in
  (forall step, (step < k)%nat ->
    holds (esc_step F F 1 zeta false (S i) step (ewir F (map (nbit v) (seq 0 n))) (pwir p0) (map pwir qs) (map pwir ints)) tt) <->
  no_clash s P0 ins 0 i /\
  (forall j, (j < k)%nat -> nth_error ints j = cg_aff _ _ _ _ _ E (partial_combo s P0 ins (4 * S j))).
Proof.
  intros F Fs b zeta lambda E n v i k P0 ins p0 qs ints two lam Ev ch Hi Li Hk Lk A0 AI s.
  destruct (num_steps_ok i k Hk) as (K1 & K2 & K3 & K4). specialize (K4 Hi).
  assert (ch' : forall m, (0 < m < (3 * 2 ^ (length (map (nbit v) (seq 0 n)) / 2)) * (3 * 2 ^ (length (map (nbit v) (seq 0 n)) / 2)))%nat -> fnat m <> (0 : Fs))
    by (rewrite map_length, seq_length; exact ch).
  pose proof (fun acc => step_w F Fs b zeta lambda E two lam (map (nbit v) (seq 0 n)) ch' i k P0 ins p0 qs ints acc Li Hk Hi Lk A0 AI) as SW.
  rewrite (lift_eq Fs lambda n v Ev) in SW. fold s in SW.
  split.
  - intros H.
    assert (G : forall m, (m <= k)%nat -> no_clash s P0 ins 0 (4 * m) /\
      (forall j, (j < m)%nat -> nth_error ints j = cg_aff _ _ _ _ _ E (partial_combo s P0 ins (4 * S j)))).
    { induction m as [|m IH]; intros Hm.
      - split; [intros j q Hj; lia|intros j Hj; lia].
      - destruct IH as (NC & HJ); [lia|].
        assert (exists acc, (match m with O => Some p0 | S j => nth_error ints j end) = Some acc /\ cg_aff _ _ _ _ _ E (partial_combo s P0 ins (4 * m)) = Some acc) as (acc & HA & Aacc).
        { destruct m as [|m].
          - exists p0. split; [reflexivity|]. rewrite partial_0. exact A0.
          - destruct (nth_error ints m) as [acc|] eqn:Em; [|apply nth_error_None in Em; lia]. exists acc. split; [reflexivity|]. rewrite <- HJ by lia. exact Em. }
        destruct (proj1 (SW acc m ltac:(lia) HA Aacc tt) (H m ltac:(lia))) as (NC' & Ho & _). split.
        + intros j q Hj Hq. destruct (Nat.lt_ge_cases j (4 * m)); [apply (NC j q); [lia|exact Hq]|apply (NC' j q); [lia|exact Hq]].
        + intros j Hj. destruct (Nat.eq_dec j m) as [->|D]; [symmetry; exact Ho|apply HJ; lia]. }
    destruct (G k (le_n _)) as (NC & HJ). split; [|exact HJ]. intros j q Hj Hq. apply (NC j q); [lia|exact Hq].
  - intros (NC & HJ) m Hm.
    assert (exists acc, (match m with O => Some p0 | S j => nth_error ints j end) = Some acc /\ cg_aff _ _ _ _ _ E (partial_combo s P0 ins (4 * m)) = Some acc) as (acc & HA & Aacc).
    { destruct m as [|m].
      - exists p0. split; [reflexivity|]. rewrite partial_0. exact A0.
      - destruct (nth_error ints m) as [acc|] eqn:Em; [|apply nth_error_None in Em; lia]. exists acc. split; [reflexivity|]. rewrite <- HJ by lia. exact Em. }
    apply (SW acc m Hm HA Aacc tt). split; [|split; [symmetry; apply HJ; exact Hm|reflexivity]].
    intros j q Hj Hq. apply (NC j q); [|exact Hq]. assert (j < length ins)%nat by (apply nth_error_Some; congruence). lia.
Qed.
Print Assumptions C29_steps.

(** Hence satisfied step circuits force the last interstitial to be the whole
    combination of the points. *)
Theorem C29_sound : forall (F Fs : Field) (b zeta : F) (lambda : Fs) (E : CurveGroup F Fs b zeta lambda) n v i k (P0 : E) (ins : list E) p0 qs (ints : list (F * F)),
  (1 + 1 : F) <> 0 -> lambda * lambda + lambda + 1 = 0 -> Nat.even n = true ->
  (forall m, (0 < m < (3 * 2 ^ (n / 2)) * (3 * 2 ^ (n / 2)))%nat -> fnat m <> (0 : Fs)) ->
  (0 < i)%nat -> length ins = i -> num_steps (S i) = Some k -> length ints = k ->
  cg_aff _ _ _ _ _ E P0 = Some p0 -> map (cg_aff _ _ _ _ _ E) ins = map Some qs ->
  (forall step, (step < k)%nat ->
    holds (esc_step F F 1 zeta false (S i) step (ewir F (map (nbit v) (seq 0 n))) (pwir p0) (map pwir qs) (map pwir ints)) tt) ->
  nth_error ints (k - 1) = cg_aff _ _ _ _ _ E (combo (lift_native Fs lambda n v) (P0 :: ins)).
Proof.
  intros F Fs b zeta lambda E n v i k P0 ins p0 qs ints two lam Ev ch Hi Li Hk Lk A0 AI H.
  destruct (num_steps_ok i k Hk) as (K1 & K2 & K3 & K4).
  destruct (proj1 (C29_steps F Fs b zeta lambda E n v i k P0 ins p0 qs ints two lam Ev ch Hi Li Hk Lk A0 AI) H) as (_ & HJ).
  rewrite HJ by lia. rewrite partial_all by lia. reflexivity.
Qed.
Print Assumptions C29_sound.

(** The honest witness passes every step unless an addition meets equal or opposite
    points; each step costs 11 + 7 n/2 gates per input and one inversion. *)
Theorem C29_complete : forall (F Fs : Field) (b zeta : F) (lambda : Fs) (E : CurveGroup F Fs b zeta lambda) n v i (points : list E) w p0 qs ints,
  (1 + 1 : F) <> 0 -> lambda * lambda + lambda + 1 = 0 -> Nat.even n = true ->
  (forall m, (0 < m < (3 * 2 ^ (n / 2)) * (3 * 2 ^ (n / 2)))%nat -> fnat m <> (0 : Fs)) ->
  (0 < i)%nat -> points_new (S i) (lift_native Fs lambda n v) points = Some w ->
  cg_aff _ _ _ _ _ E (pw_initial w) = Some p0 -> map (cg_aff _ _ _ _ _ E) (pw_inputs w) = map Some qs ->
  map (cg_aff _ _ _ _ _ E) (pw_interstitials w) = map Some ints ->
  no_clash (lift_native Fs lambda n v) (pw_initial w) (pw_inputs w) 0 i ->
  forall step st, step_new (S i) step = Some step ->
    let g := (Nat.min 4 (i - 4 * step) * (11 + 7 * (n / 2)))%nat in
    simulate (esc_step F F 1 zeta true (S i) step (ehon F n v) (phon p0) (map phon qs) (map phon ints)) st
    = Some (tt, bump st 0 (g + 1) (2 * g + 4)).
Proof.
  intros F Fs b zeta lambda E n v i pts w p0 qs ints two lam Ev ch Hi Hw A0 AI AT NC step st Hst.
  pose proof (C29_witness Fs E (S i) (lift_native Fs lambda n v) pts) as W. rewrite Hw in W.
  destruct W as (Lp & Ep & Hk & HJ & _). unfold step_new in Hst. rewrite Hk in Hst. destruct (Nat.ltb_spec step (length (pw_interstitials w))) as [Hs|]; [|discriminate].
  assert (Li : length (pw_inputs w) = i) by (rewrite Ep in Lp; cbn [length] in Lp; lia).
  assert (Lk : length ints = length (pw_interstitials w)) by (rewrite <- (map_length (@Some _) ints), <- AT, map_length; reflexivity).
  assert (ch' : forall m, (0 < m < (3 * 2 ^ (length (map (nbit v) (seq 0 n)) / 2)) * (3 * 2 ^ (length (map (nbit v) (seq 0 n)) / 2)))%nat -> fnat m <> (0 : Fs))
    by (rewrite map_length, seq_length; exact ch).
  assert (HN : forall j, (j < length (pw_interstitials w))%nat ->
    nth_error ints j = cg_aff _ _ _ _ _ E (partial_combo (lift_native Fs lambda n v) (pw_initial w) (pw_inputs w) (4 * S j))).
  { intros j Hj. rewrite <- (HJ j m0 Hj). assert (M : nth_error (map Some ints) j = nth_error (map (cg_aff _ _ _ _ _ E) (pw_interstitials w)) j) by (rewrite AT; reflexivity).
    rewrite !nth_error_map, (nth_error_nth' _ m0 Hj) in M. destruct (nth_error ints j); cbn in M; congruence. }
  assert (exists acc, (match step with O => Some p0 | S j => nth_error ints j end) = Some acc /\
    cg_aff _ _ _ _ _ E (partial_combo (lift_native Fs lambda n v) (pw_initial w) (pw_inputs w) (4 * step)) = Some acc) as (acc & HA & Aacc).
  { destruct step as [|j].
    - exists p0. split; [reflexivity|]. rewrite partial_0. exact A0.
    - destruct (nth_error ints j) as [acc|] eqn:Em; [|apply nth_error_None in Em; lia]. exists acc. split; [reflexivity|]. rewrite <- HN by lia. exact Em. }
  destruct (nth_error ints step) as [out|] eqn:Eo; [|apply nth_error_None in Eo; lia].
  pose proof Eo as Eo'. rewrite (HN step Hs) in Eo'.
  pose proof (step_s F Fs b zeta lambda E two lam (map (nbit v) (seq 0 n)) ch' n v i _ (pw_initial w) (pw_inputs w) p0 qs ints acc out eq_refl Li Hk Hi Lk A0 AI step Hs HA) as SS.
  rewrite (lift_eq Fs lambda n v Ev) in SS. apply (SS Aacc Eo Eo').
  intros j q Hj Hq. apply (NC j q); [|exact Hq]. assert (j < length (pw_inputs w))%nat by (apply nth_error_Some; congruence). lia.
Qed.
Print Assumptions C29_complete.
End Steps.

(** With a single point there is one step, its range is empty and building its
    circuit fails (the assertion on the range): the claim that each step circuit
    accepts the next interstitial is false for one point. *)
Theorem C29_single_point_refuted : num_steps 1 = Some 1 /\ step_new 1 0 = Some 0 /\
  (forall (Fs : Field) (E : FMod Fs) (s : Fs) (P : E), points_new 1 s [P] = Some (mk_points P [] [P])) /\
  (forall (F : Field) (zeta : F) n v p ints st, simulate (esc_step F F f1 zeta true 1 0 (ehon F n v) (phon p) [] ints) st = None).
Proof. repeat split. Qed.
Print Assumptions C29_single_point_refuted.

(** six points of the order-103 group: two steps, the second takes one input *)
Example C29_ex_cover : num_steps 6 = Some 2 /\ map (input_range 6) (seq 0 2) = [Some [0; 1; 2; 3]; Some [4]].
Proof. split; reflexivity. Qed.
Definition ex_pts : list F103 := map (fun z => l103 z) [1; 2; 5; 11; 17; 23]%Z.
Definition ex_s : F103 := lift_native F103 ex_lambda 2 3%N.
Fixpoint all_some {T : Type} (l : list (option T)) : option (list T) :=
  match l with [] => Some [] | Some x :: r => option_map (cons x) (all_some r) | None :: _ => None end.
Example C29_ex :
  match points_new (E := cg_mod _ _ _ _ _ ex_curve) 6 ex_s ex_pts with
  | Some w =>
      map v103 (pw_interstitials w) = map v103 [combo (E := cg_mod _ _ _ _ _ ex_curve) ex_s (firstn 5 ex_pts); combo (E := cg_mod _ _ _ _ _ ex_curve) ex_s ex_pts] /\
      match ex_aff (pw_initial w), all_some (map ex_aff (pw_inputs w)), all_some (map ex_aff (pw_interstitials w)) with
      | Some p0, Some qs, Some ints =>
          map (fun step => option_map (fun r => (num_gates (snd r), num_constraints (snd r)))
            (simulate (esc_step F97 F97 f1 ex_zeta true 6 step (ehon F97 2 3%N) (phon p0) (map phon qs) (map phon ints)) (mk_simst 0 0 0))) [0; 1]
          = [Some (73, 148); Some (19, 40)] /\
          (* swapped interstitials are rejected *)
          simulate (esc_step F97 F97 f1 ex_zeta true 6 1 (ehon F97 2 3%N) (phon p0) (map phon qs) (map phon (rev ints))) (mk_simst 0 0 0) = None
      | _, _, _ => False
      end
  | None => False
  end.
Proof. vm_compute. repeat split. Qed.
