(** C72: sizes fit machine integers. *)
From Coq Require Import List Arith ZArith Bool Lia.
From Verif Require Import FieldDef GF ArithModel CircModel CircSpec CircProofs SProofs RegModel StageModel Props_Circ MachModel.
Import ListNotations.
Local Open Scope nat_scope.

(** For the documented ranks 2 to 28 and words of 32 bits or more all sizes are
    computed without overflow, and so are products and sums of a few of them;
    a rank as large as the word overflows. *)
Theorem C72_rank : forall w rank, (32 <= w -> 2 <= rank <= 28 ->
    let n := 2 ^ (rank - 2) in
    num_coeffs_w w rank = Some (4 * n) /\ n_w w rank = Some n /\ top_degree_w w rank = Some (4 * n - 1) /\
    forall i j k l, i <= 4 * n -> j <= 4 * n -> k <= 4 * n -> l <= 4 * n -> i + j + k + l < 2 ^ w) /\
  (num_coeffs_w w rank = None <-> w <= rank) /\
  (n_w w rank = None <-> rank < 2 \/ w + 2 <= rank).
Proof.
  intros w rank. split; [|split].
  - intros Hw Hr n.
    assert (P4 : 2 ^ rank = 4 * n).
    { unfold n. replace rank with (2 + (rank - 2)) at 1 by lia. rewrite Nat.pow_add_r. reflexivity. }
    assert (B : 8 * (4 * n) <= 2 ^ w).
    { rewrite <- P4. change 8 with (2 ^ 3). rewrite <- Nat.pow_add_r. apply Nat.pow_le_mono_r; lia. }
    assert (Hn : 0 < n) by (unfold n; pose proof (Nat.pow_nonzero 2 (rank - 2)); lia).
    assert (N : n_w w rank = Some n).
    { unfold n_w, log2_n_w, sub_chk, shl_chk. destruct (Nat.leb_spec 2 rank); [|lia]. cbn [obind].
      destruct (Nat.ltb_spec (rank - 2) w); [reflexivity|lia]. }
    split; [|split; [exact N|split]].
    + unfold num_coeffs_w, shl_chk. destruct (Nat.ltb_spec rank w); [now rewrite P4|lia].
    + unfold top_degree_w. rewrite N. cbn [obind]. unfold mul_chk, sub_chk.
      destruct (Nat.ltb_spec (4 * n) (2 ^ w)); [|lia]. cbn [obind]. destruct (Nat.leb_spec 1 (4 * n)); [reflexivity|lia].
    + intros. lia.
  - unfold num_coeffs_w, shl_chk. destruct (Nat.ltb_spec rank w); split; intros; try discriminate; try lia; reflexivity.
  - unfold n_w, log2_n_w, sub_chk, shl_chk. destruct (Nat.leb_spec 2 rank); cbn [obind].
    + destruct (Nat.ltb_spec (rank - 2) w); split; intros; try discriminate; try lia; reflexivity.
    + split; intros; [lia|reflexivity].
Qed.
Print Assumptions C72_rank.

Lemma floor_go_w_ok w : forall records gs cs,
  gs < 2 ^ w -> cs < 2 ^ w ->
  (gs + list_sum (map fst records) < 2 ^ w /\ cs + list_sum (map snd records) < 2 ^ w ->
   floor_go_w w gs cs records = Some (floor_go gs cs records)) /\
  (floor_go_w w gs cs records <> None ->
   gs + list_sum (map fst records) < 2 ^ w /\ cs + list_sum (map snd records) < 2 ^ w).
Proof.
  induction records as [|[g c] r IH]; intros gs cs Hg Hc; cbn [floor_go_w floor_go map fst snd].
  - change (list_sum []) with 0. rewrite !Nat.add_0_r. tauto.
  - change (list_sum (g :: map fst r)) with (g + list_sum (map fst r)).
    change (list_sum (c :: map snd r)) with (c + list_sum (map snd r)). unfold add_chk.
    destruct (Nat.ltb_spec (gs + g) (2 ^ w)) as [G|G]; cbn [obind].
    2:{ split; [intros; lia|intros K; now contradiction K]. }
    destruct (Nat.ltb_spec (cs + c) (2 ^ w)) as [C|C]; cbn [obind].
    2:{ split; [intros; lia|intros K; now contradiction K]. }
    destruct (IH (gs + g) (cs + c) G C) as [A B]. split.
    + intros H. rewrite A by lia. reflexivity.
    + intros H. destruct (floor_go_w w (gs + g) (cs + c) r); [|now contradiction H].
      specialize (B ltac:(discriminate)). lia.
Qed.

(** The floor planner overflows exactly when a total does not fit the word; on
    the records of a circuit accepted at a documented rank it never does. *)
Theorem C72_floor_plan : forall w records,
  (floor_plan_w w records <> None <->
   list_sum (map fst records) < 2 ^ w /\ list_sum (map snd records) < 2 ^ w) /\
  (forall plan, floor_plan_w w records = Some plan -> plan = floor_plan records).
Proof.
  intros w records. assert (P : 0 < 2 ^ w) by (pose proof (Nat.pow_nonzero 2 w); lia).
  destruct (floor_go_w_ok w records 0 0 P P) as [A B]. cbn [plus] in *. unfold floor_plan_w, floor_plan. split.
  - split; [exact B|]. intros H. rewrite A by exact H. discriminate.
  - intros plan E. rewrite A in E; [congruence|]. apply B. rewrite E. discriminate.
Qed.
Print Assumptions C72_floor_plan.

Theorem C72_accepted : forall (F : Field) (x0 x1 x2 x3 yc onec hc : F) w rank body outs segs,
  32 <= w -> 2 <= rank <= 28 -> let n := 2 ^ (rank - 2) in
  circuit_object x0 x1 x2 x3 yc onec hc n (4 * n) body outs = Some segs ->
  floor_plan_w w (map (fun s => (sr_gates F s, sr_cons F s)) segs) = Some (object_plan segs).
Proof.
  intros F x0 x1 x2 x3 yc onec hc w rank body outs segs Hw Hr n E.
  destruct (C15_metrics F x0 x1 x2 x3 yc onec hc body outs) as (segs' & M & Z).
  destruct (C72_rank w rank) as [R _]. destruct (R Hw Hr) as (_ & _ & _ & S). fold n in S.
  unfold circuit_object in E. rewrite M in E.
  destruct (Nat.leb_spec (4 * n) (list_sum (map snd (sizes (orchestrate body outs))))) as [|L]; [discriminate|].
  destruct (Nat.ltb_spec n (list_sum (map fst (sizes (orchestrate body outs))))) as [|G]; [discriminate|].
  assert (segs' = segs) by congruence. subst segs'. rewrite Z. unfold object_plan. rewrite Z.
  destruct (C72_floor_plan w (sizes (orchestrate body outs))) as [A B].
  destruct (floor_plan_w w (sizes (orchestrate body outs))) as [plan|] eqn:Ep; [f_equal; now apply B|].
  exfalso. apply (proj2 A); [|reflexivity].
  pose proof (S (list_sum (map fst (sizes (orchestrate body outs)))) 0 0 0).
  pose proof (S (list_sum (map snd (sizes (orchestrate body outs)))) 0 0 0). lia.
Qed.
Print Assumptions C72_accepted.

(** A mask is built with checked addition exactly as without bounds unless the
    sum overflows, which panics. *)
Theorem C72_mask : forall w n skip num, n < 2 ^ w -> skip <> 0 ->
  (skip + num < 2 ^ w -> mask_new_chk w n skip num = Some (mask_new n skip num) /\
                         mask_new_wrap w n skip num = Some (mask_new n skip num)) /\
  (2 ^ w <= skip + num -> mask_new_chk w n skip num = None /\ mask_new n skip num = None).
Proof.
  intros w n skip num Hn Hs. unfold mask_new_chk, mask_new_wrap, mask_new, add_chk, add_wrap.
  destruct (Nat.eqb_spec skip 0); [contradiction|]. split; intros H.
  - destruct (Nat.ltb_spec (skip + num) (2 ^ w)); [|lia]. cbn [obind]. rewrite Nat.mod_small by exact H. tauto.
  - destruct (Nat.ltb_spec (skip + num) (2 ^ w)); [lia|]. destruct (Nat.ltb_spec n (skip + num)); [|lia]. split; reflexivity.
Qed.
Print Assumptions C72_mask.

(** With wrapping addition the bound check of [StageMask::new] fails to reject:
    on every word and rank there are arguments over the bound that are accepted
    (and [project] then leaves the vectors). *)
Theorem C72_mask_wrap_refuted : forall w n, 1 <= n < 2 ^ w ->
  exists skip num m, skip < 2 ^ w /\ num < 2 ^ w /\ mask_new n skip num = None /\
    mask_new_wrap w n skip num = Some (Some m) /\ (n < 2 ^ w - 1 -> clears_wrap w n m = false).
Proof.
  intros w n Hn. exists 1, (2 ^ w - 1), (1, 2 ^ w - 1). split; [lia|]. split; [lia|]. split; [|split].
  - unfold mask_new. cbn [Nat.eqb]. destruct (Nat.ltb_spec n (1 + (2 ^ w - 1))); [reflexivity|lia].
  - unfold mask_new_wrap, add_wrap. cbn [Nat.eqb]. replace (1 + (2 ^ w - 1)) with (2 ^ w) by lia.
    rewrite Nat.mod_same by lia. reflexivity.
  - intros Hb. unfold clears_wrap. cbn [fst snd]. apply not_true_iff_false. intros K. rewrite forallb_forall in K.
    specialize (K (n - 1 + 0)). rewrite Nat.add_0_r in K. specialize (K ltac:(apply in_seq; lia)).
    unfold add_wrap in K. rewrite Nat.mod_small in K by lia. apply Nat.ltb_lt in K. lia.
Qed.
Print Assumptions C72_mask_wrap_refuted.

(** words of 8 bits: rank 5 fits, rank 8 does not; a plan of two segments and
    one whose total overflows; a mask and one that wraps *)
Example C72_ex :
  num_coeffs_w 8 5 = Some 32 /\ n_w 8 5 = Some 8 /\ top_degree_w 8 5 = Some 31 /\ num_coeffs_w 8 8 = None /\
  n_w 8 1 = None /\ top_degree_w 8 8 = None /\
  floor_plan_w 8 [(3, 5); (200, 1)] = Some [mk_cseg 0 0 3 5; mk_cseg 3 5 200 1] /\
  floor_plan_w 8 [(3, 5); (200, 1); (60, 0)] = None /\
  mask_new_chk 8 8 2 3 = Some (Some (2, 3)) /\ mask_new_chk 8 8 2 7 = Some None /\ mask_new_chk 8 8 2 255 = None /\
  mask_new_wrap 8 8 2 255 = Some (Some (2, 255)) /\ clears_wrap 8 8 (2, 3) = true /\ clears_wrap 8 8 (2, 255) = false.
Proof. vm_compute. repeat split; reflexivity. Qed.
(** C15's example circuit at rank 6 *)
Example C72_ex_accepted :
  let c := circuit_object (ex_c 2) (ex_c 3) (ex_c 4) (ex_c 5) (ex_c 6) (ex_c 7) (ex_c 8) (2 ^ (6 - 2)) (4 * 2 ^ (6 - 2)) (ex_body true) ex_outs in
  match c with
  | Some segs => map (fun s => (sr_gates F97 s, sr_cons F97 s)) segs = [(3, 5); (1, 1); (1, 1)]
  | None => False
  end.
Proof. vm_compute. reflexivity. Qed.
