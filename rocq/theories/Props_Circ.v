(** Property theorems C14-C20 (crate ragu_circuits: floor plans, metrics, wiring
    evaluators, traces, public inputs). *)
From Coq Require Import List Arith NArith ZArith Bool Lia Permutation.
From Verif Require Import FieldDef GF ArithModel ArithSpec SparseModel SparseSpec SparseProofs SparseProofs2
  TModel TProofs CircModel SyModel TraceModel ClaimModel CircSpec CircProofs CircProofs2 SyProofs SyProofs2
  SProofs TraceProofs SatProofs SyEvents.
Import ListNotations.
Open Scope f_scope.

(** A circuit used in the examples: an allocated x, its square by a gate tied to
    x, a routine computing 2 x^2 + 1 (with an allocation and an inner routine),
    a dropped handle, a second allocation. *)
Definition ex_inner : prog F97 :=
  PMul (l97 2) (l97 4) (l97 8) (PEnforce [LAdd (WVar 1); LSub (WVar 1)] PEnd).
Definition ex_routine : prog F97 :=
  PAdd [LTerm (WVar 0) CTwo; LAdd WOne]
  (PAlloc (l97 5)
  (PEnforce [LTerm (WVar 2) (CArb (l97 1)); LTerm WOne (CNegArb (l97 5))]
  (PClone (WVar 1) (PRoutine false [WVar 3] ex_inner [WVar 0] PEnd)))).
Definition ex_body (known : bool) : prog F97 :=
  PAlloc (l97 3)
  (PMul (l97 3) (l97 3) (l97 9)
  (PEnforce [LAdd (WVar 4); LSub (WVar 5)]
  (PEnforce [LAdd (WVar 4); LSub (WVar 6)]
  (PDrop 5 (PRoutine known [WVar 7] ex_routine [WVar 1]
  (PAlloc (l97 7) PEnd)))))).
Definition ex_outs : list wref := [WVar 8; WVar 4].
Definition ex_prog : prog F97 := orchestrate (ex_body true) ex_outs.
Definition ex_c (k : Z) : F97 := l97 k.
Example ex_prog_meets : owned ex_prog [] <> None /\ hides_d (ex_body true) = true /\
  forallb ref_hides ex_outs = true /\ sizes ex_prog = [(3, 5); (1, 1); (1, 1)]%nat.
Proof. repeat split; try (vm_compute; congruence). Qed.

(** ** C14 *)
Theorem C14_floor_plan : forall (records : list (nat * nat)),
  let plan := floor_plan records in
  length plan = length records /\
  (forall k g c, nth_error records k = Some (g, c) ->
     exists s, nth_error plan k = Some s /\ num_gates s = g /\ num_constraints s = c /\
       (k = 0%nat -> gate_start s = 0%nat /\ constraint_start s = 0%nat) /\
       (forall s', nth_error plan (S k) = Some s' ->
          gate_start s' = (gate_start s + g)%nat /\ constraint_start s' = (constraint_start s + c)%nat)) /\
  (forall j k s s', (j < k)%nat -> nth_error plan j = Some s -> nth_error plan k = Some s' ->
     (gate_start s + num_gates s <= gate_start s' /\
      constraint_start s + num_constraints s <= constraint_start s')%nat) /\
  (forall i, (i < list_sum (map fst records))%nat <->
     exists k s, nth_error plan k = Some s /\ (gate_start s <= i < gate_start s + num_gates s)%nat) /\
  (forall i, (i < list_sum (map snd records))%nat <->
     exists k s, nth_error plan k = Some s /\
       (constraint_start s <= i < constraint_start s + num_constraints s)%nat).
Proof.
  intros records plan.
  assert (N : forall k s, nth_error plan k = Some s <-> exists g c, nth_error records k = Some (g, c) /\
            s = mk_cseg (gate_off records k) (cons_off records k) g c).
  { intros k s. unfold plan. rewrite floor_plan_nth. destruct (nth_error records k) as [[g c]|].
    - split; [intros [= <-]; eauto|]. intros (g' & c' & [= <- <-] & ->). reflexivity.
    - split; [discriminate|]. intros (g' & c' & H & _). discriminate. }
  split; [apply floor_plan_length|]. split; [|split; [|split]].
  - intros k g c H. exists (mk_cseg (gate_off records k) (cons_off records k) g c).
    split; [apply N; eauto|]. cbn [gate_start constraint_start num_gates num_constraints].
    split; [reflexivity|]. split; [reflexivity|]. split; [intros ->; split; reflexivity|].
    intros s' H0. apply N in H0. destruct H0 as (g' & c' & H' & ->). cbn. split.
    + apply (gate_off_S records k (g, c) H).
    + apply (cons_off_S records k (g, c) H).
  - intros j k s s' Hjk Hs Hs'. apply N in Hs, Hs'. destruct Hs as (g & c & H & ->), Hs' as (g' & c' & H' & ->). cbn.
    pose proof (gate_off_S _ _ _ H). pose proof (cons_off_S _ _ _ H). cbn [fst snd] in *.
    pose proof (gate_off_mono records (S j) k ltac:(lia)). pose proof (cons_off_mono records (S j) k ltac:(lia)). lia.
  - intros i. split.
    + intros Hi.
      assert (X : forall m, (i < gate_off records m)%nat -> exists k s, nth_error plan k = Some s /\ (gate_start s <= i < gate_start s + num_gates s)%nat).
      { induction m as [|m IH]; intros Hm; [cbn in Hm; lia|].
        destruct (Nat.lt_ge_cases i (gate_off records m)); auto.
        destruct (nth_error records m) as [[g c]|] eqn:E.
        - exists m. eexists. split; [apply N; eauto|]. cbn. rewrite (gate_off_S _ _ _ E) in Hm. cbn in Hm. lia.
        - exfalso. unfold gate_off in *. apply nth_error_None in E.
          rewrite (firstn_all2 (n := S m)) in Hm by (rewrite map_length; lia).
          rewrite (firstn_all2 (n := m)) in H by (rewrite map_length; lia). lia. }
      apply (X (length records)). unfold gate_off. rewrite firstn_all2 by (rewrite map_length; lia). exact Hi.
    + intros (k & s & Hs & Hi). apply N in Hs. destruct Hs as (g & c & H & ->). cbn in Hi.
      pose proof (gate_off_S _ _ _ H). pose proof (gate_off_all records (S k)). cbn [fst] in *. lia.
  - intros i. split.
    + intros Hi.
      assert (X : forall m, (i < cons_off records m)%nat -> exists k s, nth_error plan k = Some s /\ (constraint_start s <= i < constraint_start s + num_constraints s)%nat).
      { induction m as [|m IH]; intros Hm; [cbn in Hm; lia|].
        destruct (Nat.lt_ge_cases i (cons_off records m)); auto.
        destruct (nth_error records m) as [[g c]|] eqn:E.
        - exists m. eexists. split; [apply N; eauto|]. cbn. rewrite (cons_off_S _ _ _ E) in Hm. cbn in Hm. lia.
        - exfalso. unfold cons_off in *. apply nth_error_None in E.
          rewrite (firstn_all2 (n := S m)) in Hm by (rewrite map_length; lia).
          rewrite (firstn_all2 (n := m)) in H by (rewrite map_length; lia). lia. }
      apply (X (length records)). unfold cons_off. rewrite firstn_all2 by (rewrite map_length; lia). exact Hi.
    + intros (k & s & Hs & Hi). apply N in Hs. destruct Hs as (g & c & H & ->). cbn in Hi.
      pose proof (cons_off_S _ _ _ H). pose proof (cons_off_all records (S k)). cbn [snd] in *. lia.
Qed.
Print Assumptions C14_floor_plan.
Example C14_ex : map gate_start (floor_plan [(3, 5); (0, 2); (4, 0); (1, 1)]%nat) = [0; 3; 3; 7]%nat.
Proof. reflexivity. Qed.

(** ** C15 *)
(** [sizes] counts gates, halves of allocation pairs and constraints by scope *)
Theorem C15_metrics : forall (F : Field) (x0 x1 x2 x3 yc onec hc : F) (body : prog F) (outs : list wref),
  let p := orchestrate body outs in
  exists segs, metrics_eval F x0 x1 x2 x3 yc onec hc body outs
    = Some (list_sum (map fst (sizes p)), list_sum (map snd (sizes p)), length outs, segs) /\
    map (fun s => (sr_gates F s, sr_cons F s)) segs = sizes p.
Proof. intros. apply metrics_ok. Qed.
Print Assumptions C15_metrics.

(** acceptance is exactly the bounds; an accepted circuit's evaluators and
    assembler never fail on the object's own floor plan, at any point *)
Theorem C15_object : forall (F : Field) (x0 x1 x2 x3 yc onec hc : F) n (body : prog F) (outs : list wref),
  let p := orchestrate body outs in
  let obj := circuit_object x0 x1 x2 x3 yc onec hc n (4 * n) body outs in
  (obj <> None <-> (list_sum (map fst (sizes p)) <= n /\ list_sum (map snd (sizes p)) < 4 * n)%nat) /\
  forall segs, obj = Some segs ->
    owned p [] <> None ->
    forall x y, sxy_eval n (4 * n) body outs x y (object_plan segs) <> None /\
      sx_eval n (4 * n) body outs x (object_plan segs) <> None /\
      sy_eval n (4 * n) body outs y (object_plan segs) <> None /\
      (forall order alpha, (forall l, Permutation (order l) l) ->
         exists tr, trace_eval order body = Some tr /\
                    assemble n (4 * n) (object_plan segs) alpha tr <> None).
Proof.
  intros F x0 x1 x2 x3 yc onec hc n body outs p obj.
  destruct (object_ok F x0 x1 x2 x3 yc onec hc n (4 * n) body outs) as [A B]. fold p obj in A, B.
  split; [exact A|]. intros segs Hs Ho x y. rewrite (B segs Hs). destruct (proj1 A) as [Hg Hc]; [congruence|].
  fold p. split; [|split; [|split]].
  - destruct (feqb x 0) eqn:Ex.
    + apply feqb_true in Ex. unfold sxy_eval. rewrite Ex, feqb_refl. discriminate.
    + apply feqb_false in Ex. assert (S := sxy_full F n body outs x y Hg Hc). unfold p. rewrite S; [discriminate|]. intros; contradiction.
  - destruct (feqb x 0) eqn:Ex.
    + apply feqb_true in Ex. unfold sx_eval. rewrite Ex, feqb_refl. discriminate.
    + apply feqb_false in Ex. destruct (sx_full F n body outs x Hg Hc) as (q & E & _); [intros; contradiction|].
      fold p in E. rewrite E. discriminate.
  - destruct (sy_ok F n body outs y Hg Hc Ho) as (q & E & _). fold p in E. rewrite E. discriminate.
  - intros order alpha Hord. eexists. split; [apply trace_eval_ok; exact Hord|].
    unfold p. rewrite assemble_ok. rewrite (trace_rows_length F alpha body outs). fold p.
    destruct (Nat.ltb_spec n (list_sum (map fst (sizes p)))); [lia|].
    destruct (trace_build_ok F n (map (ra F) (trace_rows F alpha body)) (map (rb F) (trace_rows F alpha body))
       (map (rc F) (trace_rows F alpha body)) (map (rd F) (trace_rows F alpha body))) as (q & E & _);
      try (rewrite map_length, (trace_rows_length F alpha body outs); exact Hg).
    rewrite E. discriminate.
Qed.
Print Assumptions C15_object.
Example C15_ex : match circuit_object (l97 2) (l97 3) (l97 5) (l97 7) (l97 11) (l97 13) (l97 17) 8 32 (ex_body true) ex_outs with
                 | Some segs => map (fun s => (sr_gates _ s, sr_cons _ s)) segs = [(3, 5); (1, 1); (1, 1)]%nat
                 | None => False end.
Proof. vm_compute. reflexivity. Qed.

(** ** C16 *)
(** all three equal the reference sum of y^e * (constraint e with wire
    monomials), for every circuit that fits; at x = 0 the root scope must not
    read the SYSTEM d wire, which no [Circuit] can *)
Theorem C16_agree : forall (F : Field) n (body : prog F) (outs : list wref),
  let p := orchestrate body outs in
  let plan := floor_plan (sizes p) in
  (list_sum (map fst (sizes p)) <= n)%nat -> (list_sum (map snd (sizes p)) < 4 * n)%nat ->
  owned p [] <> None -> hides_d body = true -> forallb ref_hides outs = true ->
  forall x y, exists qx qy,
    sx_eval n (4 * n) body outs x plan = Some qx /\
    sy_eval n (4 * n) body outs y plan = Some qy /\
    sxy_eval n (4 * n) body outs x y plan = Some (s_spec n p x y) /\
    p_eval (4 * n) qx y = s_spec n p x y /\
    p_eval (4 * n) qy x = s_spec n p x y.
Proof.
  intros F n body outs p plan Hg Hc Ho Hb Hos x y.
  destruct (sx_full F n body outs x Hg Hc) as (qx & Ex & _ & Vx); [auto|].
  destruct (sy_ok F n body outs y Hg Hc Ho) as (qy & Ey & _ & Vy).
  exists qx, qy. refine (conj Ex (conj Ey (conj _ (conj (Vx y) (Vy x))))).
  apply sxy_full; auto.
Qed.
Print Assumptions C16_agree.

(** away from x = 0 no condition on the SYSTEM wires is needed *)
Theorem C16_agree_raw : forall (F : Field) n (body : prog F) (outs : list wref) (x : F),
  let p := orchestrate body outs in
  let plan := floor_plan (sizes p) in
  (list_sum (map fst (sizes p)) <= n)%nat -> (list_sum (map snd (sizes p)) < 4 * n)%nat ->
  owned p [] <> None -> x <> 0 ->
  forall y, exists qx qy,
    sx_eval n (4 * n) body outs x plan = Some qx /\
    sy_eval n (4 * n) body outs y plan = Some qy /\
    sxy_eval n (4 * n) body outs x y plan = Some (s_spec n p x y) /\
    p_eval (4 * n) qx y = s_spec n p x y /\
    p_eval (4 * n) qy x = s_spec n p x y.
Proof.
  intros F n body outs x p plan Hg Hc Ho Hx y.
  destruct (sx_full F n body outs x Hg Hc) as (qx & Ex & _ & Vx); [intros; contradiction|].
  destruct (sy_ok F n body outs y Hg Hc Ho) as (qy & Ey & _ & Vy).
  exists qx, qy. refine (conj Ex (conj Ey (conj _ (conj (Vx y) (Vy x))))).
  apply sxy_full; auto.
Qed.
Print Assumptions C16_agree_raw.

(** the condition at x = 0 is needed: a RawCircuit constraining the SYSTEM d
    wire has s(0,y) <> 0, which the x = 0 shortcut of sx and sxy misses *)
Definition ex_raw : prog F97 := PEnforce [LAdd (WVar 3)] PEnd.
Theorem C16_raw_at_zero_refuted :
  exists qy : list (nat * list F97),
  sy_eval 4 16 ex_raw [] (l97 5) (floor_plan (sizes (orchestrate ex_raw []))) = Some qy /\
  sxy_eval 4 16 ex_raw [] (l97 0) (l97 5) (floor_plan (sizes (orchestrate ex_raw []))) = Some (l97 0) /\
  v97 (p_eval 16 qy (l97 0)) = 5%Z /\ owned (orchestrate ex_raw []) [] <> None.
Proof.
  destruct (sy_eval 4 16 ex_raw [] (l97 5) (floor_plan (sizes (orchestrate ex_raw [])))) as [q|] eqn:E.
  - exists q. split; [reflexivity|]. split; [vm_compute; reflexivity|].
    split; [|vm_compute; congruence].
    assert (match sy_eval 4 16 ex_raw [] (l97 5) (floor_plan (sizes (orchestrate ex_raw []))) with
            | Some q => v97 (p_eval 16 q (l97 0)) = 5%Z | None => False end) by (vm_compute; reflexivity).
    rewrite E in H. exact H.
  - exfalso. vm_compute in E. discriminate.
Qed.
Print Assumptions C16_raw_at_zero_refuted.
Example C16_ex :
  let plan := floor_plan (sizes ex_prog) in
  match sx_eval 8 32 (ex_body true) ex_outs (l97 6) plan, sy_eval 8 32 (ex_body true) ex_outs (l97 10) plan,
        sxy_eval 8 32 (ex_body true) ex_outs (l97 6) (l97 10) plan with
  | Some qx, Some qy, Some s => v97 (p_eval 32 qx (l97 10)) = v97 s /\ v97 (p_eval 32 qy (l97 6)) = v97 s /\ v97 s <> 0%Z
  | _, _, _ => False end.
Proof. vm_compute. repeat split; congruence. Qed.

(** ** C17 *)
Lemma cnt_filter i l : cnt i l = length (filter (is_v i) l).
Proof. induction l as [|w l IH]; [reflexivity|]. cbn [cnt filter]. destruct (is_v i w); cbn [length]; lia. Qed.

(** after any legal history: no assertion fired, counts are exact, the free list
    is exactly the unreferenced slots, and those slots are clean *)
Theorem C17_refcounts : forall (F : Field) G (evs : list (vev F)) live,
  ev_legal F G evs [] = Some live ->
  exists env t, ev_exec F evs [] (vt_empty F G) = Some (env, t) /\
    length env = length live /\
    NoDup (vt_free t) /\
    forall i, let w := nth i (vt_wires t) (mk_vwire 0 [] CZero) in
      vw_rc w = (length (filter (is_v i) (lives env live))
                 + length (filter (is_v i) (flat_map (fun w => map fst (vw_terms w)) (vt_wires t))))%nat /\
      (In i (vt_free t) <-> (i < length (vt_wires t))%nat /\ vw_rc w = 0%nat) /\
      (vw_rc w = 0%nat -> vw_terms w = [] /\ vw_value w = CZero).
Proof.
  intros F G evs live Hl.
  destruct (ev_run_ok F G (fun _ _ => 0) evs live Hl) as (env & t & den & rk & E & He & HI & _).
  exists env, t. split; [exact E|]. split; [exact He|].
  destruct HI as [I1 I2 I3 I4 I5 I6 I7 I8 I9]. split; [exact I3|]. intros i w.
  change w with (wat F t i). split; [|split].
  - rewrite I1, !cnt_filter. reflexivity.
  - rewrite I2. cbn [In]. tauto.
  - intros H. destruct (I4 i H) as [A B]. split; auto.
Qed.
Print Assumptions C17_refcounts.

(** once every handle is dropped nothing is left in the table, and the gate
    buffers hold the weighted sum of the enforced linear forms, coefficient by
    coefficient ([ev_sum] never looks at a table) *)
Theorem C17_resolved : forall (F : Field) G (evs : list (vev F)) live,
  ev_legal F G evs [] = Some live -> (forall h, nth h live false = false) ->
  exists env t, ev_exec F evs [] (vt_empty F G) = Some (env, t) /\
    (forall i, nth i (vt_wires t) (mk_vwire 0 [] CZero) = mk_vwire 0 [] CZero) /\
    length (vt_free t) = length (vt_wires t) /\
    length (vt_a t) = G /\ length (vt_b t) = G /\ length (vt_c t) = G /\ length (vt_d t) = G /\
    forall k g, (g < G)%nat -> nth g (side F t k) 0 = ev_sum F (wire_only F k g) evs [].
Proof.
  intros F G evs live Hl Hd.
  assert (HL : forall env, lives env live = []).
  { clear - Hd. intros env. revert live Hd. induction env as [|w e IH]; intros [|b l] Hd; auto. cbn [lives].
    assert (b = false) as -> by exact (Hd 0%nat). apply IH. intros h. exact (Hd (S h)). }
  destruct (ev_run_ok F G (fun _ _ => 0) evs live Hl) as (env & t & den & rk & E & He & HI & _).
  rewrite HL in HI. exists env, t. split; [exact E|].
  destruct (no_leak F G _ t den rk HI) as (Z & Lf & _).
  destruct (i_len _ _ _ _ _ _ _ _ HI) as (La & Lb & Lc & Ld).
  split; [|split; [exact Lf|]].
  - intros i. change (wat F t i = mk_vwire 0 [] CZero). destruct (i_dead _ _ _ _ _ _ _ _ HI i (Z i)) as [A B].
    specialize (B ltac:(auto)). specialize (Z i). destruct (wat F t i). cbn in *. now subst.
  - do 4 (split; [assumption|]). intros k g Hg.
    destruct (ev_run_ok F G (wire_only F k g) evs live Hl) as (env1 & t1 & den1 & rk1 & E1 & _ & HI1 & Ph).
    rewrite E in E1. injection E1 as <- <-. rewrite HL in HI1.
    destruct (no_leak F G _ t den1 rk1 HI1) as (_ & _ & P1). rewrite <- (bufs_only F G k g t Hg). congruence.
Qed.
Print Assumptions C17_resolved.

(** the order and placement of drops never matter *)
Theorem C17_drop_order : forall (F : Field) G (evs evs' : list (vev F)) live live',
  ev_legal F G evs [] = Some live -> (forall h, nth h live false = false) ->
  ev_legal F G evs' [] = Some live' -> (forall h, nth h live' false = false) ->
  filter (not_drop F) evs = filter (not_drop F) evs' ->
  exists env t env' t', ev_exec F evs [] (vt_empty F G) = Some (env, t) /\
    ev_exec F evs' [] (vt_empty F G) = Some (env', t') /\
    vt_a t = vt_a t' /\ vt_b t = vt_b t' /\ vt_c t = vt_c t' /\ vt_d t = vt_d t'.
Proof.
  intros F G evs evs' live live' H1 D1 H2 D2 He.
  destruct (C17_resolved F G evs live H1 D1) as (env & t & E & _ & _ & A1 & A2 & A3 & A4 & V).
  destruct (C17_resolved F G evs' live' H2 D2) as (env' & t' & E' & _ & _ & B1 & B2 & B3 & B4 & V').
  exists env, t, env', t'. split; [exact E|]. split; [exact E'|].
  assert (X : forall k, length (side F t k) = G -> length (side F t' k) = G -> side F t k = side F t' k).
  { intros k L L'. apply (nth_ext _ _ 0 0); [congruence|]. rewrite L. intros g Hg.
    rewrite V, V' by exact Hg. rewrite (ev_sum_drops F _ evs), (ev_sum_drops F _ evs'), He. reflexivity. }
  split; [apply (X KA A1 B1)|]. split; [apply (X KB A2 B2)|]. split; [apply (X KC A3 B3)|apply (X KD A4 B4)].
Qed.
Print Assumptions C17_drop_order.

Definition ex_evs1 : list (vev F97) :=
  [EAdd [LAdd (RGate KA 0); LTerm (RGate KB 1) (CArb (l97 5))]; EClone 0; EAdd [LAdd (RH 0); LSub (RH 1); LTerm (RH 0) CTwo];
   EDrop 0; EEnforce (l97 7) [LAdd (RH 2); LAdd (RGate KD 1)]; EDrop 1; EAdd [LTerm (RH 2) (CNegArb (l97 3))]; EDrop 2;
   EEnforce (l97 4) [LAdd (RH 3)]; EDrop 3].
Definition ex_evs2 : list (vev F97) :=
  [EAdd [LAdd (RGate KA 0); LTerm (RGate KB 1) (CArb (l97 5))]; EClone 0; EAdd [LAdd (RH 0); LSub (RH 1); LTerm (RH 0) CTwo];
   EEnforce (l97 7) [LAdd (RH 2); LAdd (RGate KD 1)]; EAdd [LTerm (RH 2) (CNegArb (l97 3))];
   EEnforce (l97 4) [LAdd (RH 3)]; EDrop 2; EDrop 1; EDrop 3; EDrop 0].
Example C17_ex :
  ev_legal F97 2 ex_evs1 [] = Some [false; false; false; false] /\
  ev_legal F97 2 ex_evs2 [] = Some [false; false; false; false] /\
  filter (not_drop F97) ex_evs1 = filter (not_drop F97) ex_evs2 /\
  match ev_exec F97 ex_evs1 [] (vt_empty F97 2) with
  | Some (_, t) => map v97 (vt_a t) = [87; 0]%Z /\ map v97 (vt_b t) = [0; 47]%Z /\ map v97 (vt_d t) = [0; 7]%Z
  | None => False end.
Proof.
  split; [vm_compute; reflexivity|]. split; [vm_compute; reflexivity|]. split; [reflexivity|].
  vm_compute. auto.
Qed.

(** ** C18 *)
(** any order of the queued subtrees, any Known/Unknown classification *)
Theorem C18_schedule_independent : forall (F : Field) n NC alpha (body body' : prog F) (outs outs' : list wref) order order',
  (forall l, Permutation (order l) l) -> (forall l, Permutation (order' l) l) ->
  erase_known F body = erase_known F body' ->
  exists tr, trace_eval order body = Some tr /\ trace_eval order' body' = Some tr /\
    assemble n NC (floor_plan (sizes (orchestrate body outs))) alpha tr =
    assemble n NC (floor_plan (sizes (orchestrate body' outs'))) alpha tr.
Proof.
  intros F n NC alpha body body' outs outs' order order' H H' He.
  assert (R : rows false body = rows false body') by (rewrite <- rows_erase, He; apply rows_erase).
  assert (S : sub_rows body = sub_rows body') by (rewrite <- sub_rows_erase, He; apply sub_rows_erase).
  eexists. split; [apply trace_eval_ok; exact H|]. split.
  - rewrite R, S. apply trace_eval_ok; exact H'.
  - rewrite assemble_ok. rewrite R, S. rewrite assemble_ok. unfold trace_rows. rewrite R, S. reflexivity.
Qed.
Print Assumptions C18_schedule_independent.

(** the assembled polynomial: root rows first, then the scopes in DFS order,
    row i's a, b, c, d at exponents 2n+i, 2n-1-i, i, 4n-1-i; too many gates are
    refused and nothing else is *)
Theorem C18_assembled : forall (F : Field) n alpha (body : prog F) (outs : list wref) order,
  (forall l, Permutation (order l) l) ->
  let R := (0, 1, 0, alpha) :: rows false body ++ concat (sub_rows body) in
  let plan := floor_plan (sizes (orchestrate body outs)) in
  let g := list_sum (map fst (sizes (orchestrate body outs))) in
  length R = g /\
  exists tr, trace_eval order body = Some tr /\
    if (n <? g)%nat then assemble n (4 * n) plan alpha tr = None
    else exists q, assemble n (4 * n) plan alpha tr = Some q /\
      wf 0 (4 * n) q /\
      forall i, (i < n)%nat -> let '(a, b, c, d) := nth i R (0, 0, 0, 0) in
        coeff_at q (2 * n + i) = a /\ coeff_at q (2 * n - 1 - i) = b /\
        coeff_at q i = c /\ coeff_at q (4 * n - 1 - i) = d.
Proof.
  intros F n alpha body outs order H R plan g. assert (L : length R = g) by apply trace_rows_length. split; [exact L|].
  eexists. split; [apply trace_eval_ok; exact H|]. unfold plan. rewrite assemble_ok.
  change (trace_rows F alpha body) with R. rewrite L.
  destruct (Nat.ltb_spec n g) as [Hn|Hn]; [reflexivity|].
  destruct (trace_build_ok F n (map (ra F) R) (map (rb F) R) (map (rc F) R) (map (rd F) R)) as (q & E & W & C);
    try (rewrite map_length, L; exact Hn).
  exists q. split; [exact E|]. split; [exact W|]. intros i Hi.

  destruct (nth i R (0, 0, 0, 0)) as [[[a b] c] d] eqn:En. rewrite !C. unfold trace_coeff.
  assert (N : forall (f : F * F * F * F -> F), f (0, 0, 0, 0) = 0 -> nth i (map f R) 0 = f (a, b, c, d)).
  { intros f Hf. rewrite <- Hf, map_nth, En. reflexivity. }
  split; [|split; [|split]].
  - destruct (Nat.ltb_spec (2 * n + i) n); [lia|]. destruct (Nat.ltb_spec (2 * n + i) (2 * n)); [lia|].
    destruct (Nat.ltb_spec (2 * n + i) (3 * n)); [|lia]. replace (2 * n + i - 2 * n)%nat with i by lia. now apply N.
  - destruct (Nat.ltb_spec (2 * n - 1 - i) n); [lia|]. destruct (Nat.ltb_spec (2 * n - 1 - i) (2 * n)); [|lia].
    replace (2 * n - 1 - (2 * n - 1 - i))%nat with i by lia. now apply N.
  - destruct (Nat.ltb_spec i n); [|lia]. now apply N.
  - destruct (Nat.ltb_spec (4 * n - 1 - i) n); [lia|]. destruct (Nat.ltb_spec (4 * n - 1 - i) (2 * n)); [lia|].
    destruct (Nat.ltb_spec (4 * n - 1 - i) (3 * n)); [lia|]. destruct (Nat.ltb_spec (4 * n - 1 - i) (4 * n)); [|lia].
    replace (4 * n - 1 - (4 * n - 1 - i))%nat with i by lia. now apply N.
Qed.
Print Assumptions C18_assembled.
Example C18_ex :
  erase_known F97 (ex_body true) = erase_known F97 (ex_body false) /\ ex_body true <> ex_body false /\
  match trace_eval (fun l => l) (ex_body true), trace_eval (fun l => rev l) (ex_body false) with
  | Some tr, Some tr' => map (fun g => map v97 (tg_b g)) tr = [[0; 3; 3]; [5]; [4]]%Z /\
      map (fun g => map v97 (tg_b g)) tr' = map (fun g => map v97 (tg_b g)) tr /\
      assemble 4 16 (floor_plan (sizes ex_prog)) (l97 11) tr = None /\
      match assemble 8 32 (floor_plan (sizes ex_prog)) (l97 11) tr with
      | Some q => map (fun k => v97 (coeff_at q k)) [15; 14; 13; 31]%nat = [1; 3; 3; 11]%Z
      | None => False end
  | _, _ => False end.
Proof.
  split; [reflexivity|]. split; [|vm_compute; auto 10].
  unfold ex_body. intros H. repeat match goal with H : ?f ?a = ?f ?b |- _ => first [discriminate H | injection H; clear H; intros] end.
Qed.

(** ** C19 *)
(** [satisfied] is CircSpec.v: every gate equation and every constraint of every
    scope, the public outputs and ONE = 1; [passes] is SatProofs.v *)
Theorem C19_complete : forall (F : Field) n (body : prog F) (outs : list wref) (outputs : list F) (a b c d : list F) r,
  let p := orchestrate body outs in
  (list_sum (map fst (sizes p)) <= n)%nat -> (list_sum (map snd (sizes p)) < 4 * n)%nat -> owned p [] <> None ->
  (length a <= n)%nat -> (length b <= n)%nat -> (length c <= n)%nat -> (length d <= n)%nat ->
  trace_build (4 * n) n a b c d = Some r -> length outputs = length outs ->
  satisfied n a b c d body outs outputs ->
  forall y z, passes F n r body outs outputs y z.
Proof. intros. apply (sat_complete F n body outs outputs a b c d r); auto. Qed.
Print Assumptions C19_complete.

(** conversely: 4n values of y, for each of which 4n values of z pass, force
    satisfaction, so an unsatisfying trace passes at fewer than 8n|F| of the
    |F|^2 points (y,z) *)
Theorem C19_sound : forall (F : Field) n (body : prog F) (outs : list wref) (outputs : list F) (a b c d : list F) r ys,
  let p := orchestrate body outs in
  (list_sum (map fst (sizes p)) <= n)%nat -> (list_sum (map snd (sizes p)) < 4 * n)%nat -> owned p [] <> None ->
  (length a <= n)%nat -> (length b <= n)%nat -> (length c <= n)%nat -> (length d <= n)%nat ->
  trace_build (4 * n) n a b c d = Some r -> length outputs = length outs ->
  NoDup ys -> (4 * n <= length ys)%nat ->
  (forall y, In y ys -> exists zs, NoDup zs /\ (4 * n <= length zs)%nat /\
     forall z, In z zs -> passes F n r body outs outputs y z) ->
  satisfied n a b c d body outs outputs.
Proof. intros. eapply (sat_sound F n body outs outputs a b c d r) with (ys := ys); auto. Qed.
Print Assumptions C19_sound.

(** the trace the prover assembles: its columns are the rows of the program *)
Theorem C19_assembled : forall (F : Field) n alpha (body : prog F) (outs : list wref) (outputs : list F) order,
  (forall l, Permutation (order l) l) ->
  let p := orchestrate body outs in
  let R := (0, 1, 0, alpha) :: rows false body ++ concat (sub_rows body) in
  (list_sum (map fst (sizes p)) <= n)%nat -> (list_sum (map snd (sizes p)) < 4 * n)%nat -> owned p [] <> None ->
  length outputs = length outs ->
  satisfied n (map (fun r => fst (fst (fst r))) R) (map (fun r => snd (fst (fst r))) R)
              (map (fun r => snd (fst r)) R) (map snd R) body outs outputs ->
  exists tr r, trace_eval order body = Some tr /\ assemble n (4 * n) (floor_plan (sizes p)) alpha tr = Some r /\
    forall y z, passes F n r body outs outputs y z.
Proof.
  intros F n alpha body outs outputs order H p R Hg Hc Ho Hl Hs.
  assert (L : length R = list_sum (map fst (sizes p))) by apply trace_rows_length.
  eexists. 
  destruct (trace_build_ok F n (map (ra F) R) (map (rb F) R) (map (rc F) R) (map (rd F) R)) as (q & E & W & C);
    try (rewrite map_length, L; exact Hg).
  exists q. split; [apply trace_eval_ok; exact H|]. split.
  - unfold p. rewrite assemble_ok. change (trace_rows F alpha body) with R. rewrite L.
    destruct (Nat.ltb_spec n (list_sum (map fst (sizes p)))); [lia|]. exact E.
  - intros y z. eapply sat_complete; try exact Hs; try exact E; auto; rewrite map_length, L; exact Hg.
Qed.
Print Assumptions C19_assembled.

Definition ex_rows : list (F97 * F97 * F97 * F97) :=
  (0, 1, 0, l97 11) :: rows false (ex_body true) ++ concat (sub_rows (ex_body true)).
Example C19_ex :
  satisfied 8 (map (fun r => fst (fst (fst r))) ex_rows) (map (fun r => snd (fst (fst r))) ex_rows)
              (map (fun r => snd (fst r)) ex_rows) (map snd ex_rows) (ex_body true) ex_outs (map l97 [19; 3]%Z) /\
  ~ satisfied 8 (map (fun r => fst (fst (fst r))) ex_rows) (map (fun r => snd (fst (fst r))) ex_rows)
              (map (fun r => snd (fst r)) ex_rows) (map snd ex_rows) (ex_body true) ex_outs (map l97 [19; 4]%Z).
Proof.
  split.
  - split.
    + intros i Hi. do 8 (destruct i as [|i]; [split; vm_compute; reflexivity|]). lia.
    + unfold linear_ok. cbv zeta. split; [|split; [|split]].
      * apply Forall_forall. apply Forall_forall.
        change (Forall (fun v : F97 => v = l97 0) (sm_own (sem (placed (sizes ex_prog)
          (columns (map (fun r => fst (fst (fst r))) ex_rows) (map (fun r => snd (fst (fst r))) ex_rows)
              (map (fun r => snd (fst r)) ex_rows) (map snd ex_rows))) (ex_body true) 0 1 1 None
              (system_wires (placed (sizes ex_prog)
          (columns (map (fun r => fst (fst (fst r))) ex_rows) (map (fun r => snd (fst (fst r))) ex_rows)
              (map (fun r => snd (fst r)) ex_rows) (map snd ex_rows))))))).
        vm_compute. repeat constructor.
      * vm_compute. repeat constructor.
      * vm_compute. reflexivity.
      * vm_compute. reflexivity.
  - intros [_ (_ & _ & H & _)]. apply (f_equal (map v97)) in H. vm_compute in H. discriminate.
Qed.

(** ** C20 *)
Theorem C20_ky : forall (F : Field) (outputs : list F) (y : F),
  ky_eval outputs y = 1 + fsum (length outputs) (fun i => nth (length outputs - 1 - i) outputs 0 * y ^ (S i)).
Proof. intros. apply ky_sum. Qed.
Print Assumptions C20_ky.

(** two output vectors of one length with the same k at enough points are equal *)
Theorem C20_injective : forall (F : Field) (o o' ys : list F),
  length o = length o' -> NoDup ys -> (S (length o) <= length ys)%nat ->
  (forall y, In y ys -> ky_eval o y = ky_eval o' y) -> o = o'.
Proof.
  intros F o o' ys Hl Hnd Hy H.
  assert (U : forall i, nth i (1 :: rev o) 0 = nth i (1 :: rev o') 0).
  { apply (poly_unique F (1 :: rev o) (1 :: rev o') ys Hnd); cbn [length]; rewrite ?rev_length; try lia.
    intros y Hin. rewrite <- !ky_ok. now apply H. }
  rewrite <- (rev_involutive o), <- (rev_involutive o'). f_equal.
  apply (nth_ext _ _ 0 0); [now rewrite !rev_length|]. intros i _. exact (U (S i)).
Qed.
Print Assumptions C20_injective.

(** ... and the fixed length is needed: a leading zero output is invisible *)
Theorem C20_length_refuted : exists o o' : list F97, o <> o' /\ forall y, ky_eval o y = ky_eval o' y.
Proof.
  exists (map l97 [0; 5]%Z), (map l97 [5]%Z). split; [discriminate|]. intros y. rewrite !ky_ok.
  apply peval_nth_ext. intros [|[|[|i]]]; try (vm_compute; reflexivity).
  rewrite !nth_overflow by (cbn; lia). reflexivity.
Qed.
Print Assumptions C20_length_refuted.
Example C20_ex : v97 (ky_eval (map l97 [3; 5]%Z) (l97 10)) = ((1 + 5 * 10 + 3 * 100) mod 97)%Z.
Proof. vm_compute. reflexivity. Qed.
