(** Proofs about routine fingerprints. *)
From Coq Require Import List Arith Lia Bool Ring Field.
From Verif Require Import FieldDef ArithModel ArithSpec ArithProofs FFTModel FFTProofs SparseModel CircModel CircSpec CircProofs FingerModel FingerSpec.
Import ListNotations.
Local Open Scope nat_scope.

Section Lin.
  Variable F : Field.
  Add Field FFu29 : (f_theory F).
  Open Scope f_scope.
  Variables x0 x1 x2 x3 one : F.
  Local Notation at_ := (form_at x0 x1 x2 x3 one).
  Lemma at_ext G (f g : form F) : (forall s, f s = g s) -> at_ G f = at_ G g.
  Proof. intros H. unfold form_at. rewrite (H SOne). f_equal. apply fsum_ext. intros i _. rewrite !H. reflexivity. Qed.
  Lemma at_add G (f g : form F) : at_ G (fun s => f s + g s) = at_ G f + at_ G g.
  Proof.
    unfold form_at. transitivity (f SOne * one + g SOne * one + (fsum G (fun i => (f (SW KA i) * x0 ^ S i + f (SW KB i) * x1 ^ S i) + (f (SW KC i) * x2 ^ S i + f (SW KD i) * x3 ^ S i)) + fsum G (fun i => (g (SW KA i) * x0 ^ S i + g (SW KB i) * x1 ^ S i) + (g (SW KC i) * x2 ^ S i + g (SW KD i) * x3 ^ S i)))); [|ring].
    rewrite <- fsum_add. f_equal; [ring|]. apply fsum_ext. intros i _. ring.
  Qed.
  Lemma at_scale G c (f : form F) : at_ G (fun s => c * f s) = c * at_ G f.
  Proof.
    unfold form_at. transitivity (c * (f SOne * one) + c * fsum G (fun i => (f (SW KA i) * x0 ^ S i + f (SW KB i) * x1 ^ S i) + (f (SW KC i) * x2 ^ S i + f (SW KD i) * x3 ^ S i))); [|ring].
    rewrite <- fsum_scale. f_equal; [ring|]. apply fsum_ext. intros i _. ring.
  Qed.
  Lemma at_0 G : at_ G (fun _ => 0) = 0.
  Proof. unfold form_at. rewrite fsum_zero; [ring|]. intros i _. ring. Qed.
  Lemma at_one G : at_ G (unit_form SOne) = one.
  Proof. unfold form_at, unit_form. cbn [slot_eqb]. rewrite fsum_zero; [ring|]. intros i _. ring. Qed.
  Lemma at_unit G k i : (i < G)%nat ->
    at_ G (unit_form (SW k i)) = match k with KA => x0 | KB => x1 | KC => x2 | KD => x3 end ^ S i.
  Proof.
    intros H. unfold form_at, unit_form. rewrite (fsum_single F G i _ H).
    - destruct k; cbn [slot_eqb]; rewrite Nat.eqb_refl; ring.
    - intros j _ Hj. apply Nat.eqb_neq in Hj. destruct k; cbn [slot_eqb]; rewrite Hj; ring.
  Qed.
  Lemma at_sum G n (f : nat -> form F) : at_ G (fun s => fsum n (fun i => f i s)) = fsum n (fun i => at_ G (f i)).
  Proof.
    induction n as [|n IH]; [apply at_0|]. cbn [fsum]. rewrite <- IH, <- at_add. apply at_ext. reflexivity.
  Qed.
  Lemma at_call G (wv : wref -> form F) op :
    at_ G (fun s => call_sum (fun r => wv r s) op) = call_sum (fun r => at_ G (wv r)) op.
  Proof.
    destruct op as [w c|c|w|w|ts]; cbn [call_sum].
    - apply at_scale.
    - apply at_0.
    - apply at_ext. reflexivity.
    - transitivity ((- (1)) * at_ G (wv w)); [|ring]. rewrite <- at_scale. apply at_ext. intros s. ring.
    - induction ts as [|t ts IH]; [apply at_0|]. cbn [map lsum fold_right] in *.
      unfold lsum in *. cbn [fold_right]. rewrite <- IH, <- at_scale, <- at_add. apply at_ext. reflexivity.
  Qed.
  Lemma at_lookup G env r : at_ G (lookup (unit_form SOne) env r) = lookup one (map (at_ G) env) r.
  Proof. destruct r as [|j]; cbn [lookup]; [apply at_one|]. transitivity (nth j (map (at_ G) env) (at_ G (unit_form SOne))); [symmetry; apply map_nth|rewrite at_one; reflexivity]. Qed.
  Lemma at_lc G env lc : at_ G (lc_form env lc) = lin_spec (lookup one (map (at_ G) env)) lc.
  Proof.
    unfold lc_form, lin_spec at 1. rewrite at_sum. unfold lin_spec. apply fsum_ext. intros i _.
    rewrite at_scale. f_equal. destruct (nth_error lc i) as [op|]; [|apply at_0].
    rewrite at_call. pose proof (at_lookup G env) as E.
    destruct op; cbn [call_sum]; rewrite ?E; try reflexivity.
    f_equal. apply map_ext. intros t. rewrite E. reflexivity.
  Qed.
End Lin.

Section Run.
  Variable F : Field.
  Add Field FFu30 : (f_theory F).
  Open Scope f_scope.
  Variables x0 x1 x2 x3 yc onec hc : F.
  Local Notation at_ := (form_at x0 x1 x2 x3 onec).
  Local Notation run := (cn_run F x0 x1 x2 x3 yc onec hc).
  Local Notation dr := (deref F onec).

  Definition horn G (fs : list (form F)) (r : F) : F := fold_left (fun acc f => acc * yc + at_ G f) fs r.
  Lemma horn_scalar G fs : forall r,
    horn G fs r = r * yc ^ length fs + fsum (length fs) (fun j => at_ G (nth j fs (fun _ => 0)) * yc ^ (length fs - 1 - j)).
  Proof.
    unfold horn. induction fs as [|f fs IH]; intros r; [cbn; ring|]. cbn [fold_left]. rewrite IH.
    cbn [length]. rewrite fsum_S_first. cbn [nth]. rewrite !Nat.sub_0_r. cbn [Nat.sub]. rewrite Nat.sub_0_r. cbn [fpow].
    rewrite (fsum_ext F _ (fun i => at_ G (nth i fs (fun _ => 0)) * yc ^ (length fs - S i)) (fun j => at_ G (nth j fs (fun _ => 0)) * yc ^ (length fs - 1 - j))); [ring|].
    intros i _. do 2 f_equal. lia.
  Qed.
  Lemma horn_h G fs : horn G fs hc = scalar x0 x1 x2 x3 yc onec hc G fs.
  Proof. apply horn_scalar. Qed.

  (** the scope is at gate g *)
  Definition at_gate (g : nat) (s : cscope F) : Prop :=
    co_a F s = x0 ^ S g /\ co_b F s = x1 ^ S g /\ co_c F s = x2 ^ S g /\ co_d F s = x3 ^ S g.
  Definition av_ok (G : nat) (a : option (wire_eval F)) (av : option (form F)) : Prop :=
    match a, av with
    | Some w, Some f => dr w = at_ G f
    | None, None => True
    | _, _ => False
    end.
  Lemma at_gate_S g s s' : at_gate g s -> co_a F s' = co_a F s * x0 -> co_b F s' = co_b F s * x1 ->
    co_c F s' = co_c F s * x2 -> co_d F s' = co_d F s * x3 -> at_gate (S g) s'.
  Proof. intros (A & B & C & D) P Q R T. unfold at_gate. rewrite P, Q, R, T, A, B, C, D. repeat split; cbn [fpow]; ring. Qed.

  Lemma two_step (P : nat -> Prop) : P 0%nat -> P 1%nat -> (forall n, P n -> P (S (S n))) -> forall n, P n.
  Proof. intros A B C n. enough (P n /\ P (S n)) by tauto. induction n as [|n [I J]]; auto. Qed.

  Lemma remap_forms G : forall m g k, co_avail F (cn_scope F k) = None -> at_gate g (cn_scope F k) ->
    (g + Nat.div2 (S m) <= G)%nat ->
    let r := cn_remap F x0 x1 x2 x3 m k in
    map dr (snd r) = map (at_ G) (outside m g) /\ at_gate (g + Nat.div2 (S m)) (cn_scope F (fst r)) /\
    co_result F (cn_scope F (fst r)) = co_result F (cn_scope F k).
  Proof.
    induction m as [| |m IH] using two_step; intros g k Ha Hg HG.
    - cbn. rewrite Nat.add_0_r. auto.
    - cbn [cn_remap outside]. unfold cn_alloc, cn_gate. rewrite Ha. cbn [set_avail cn_scope fst snd map].
      destruct Hg as (A & B & C & D). cbn [Nat.div2] in *. split; [|split; [|reflexivity]].
      + rewrite at_unit by lia. cbn [deref]. rewrite B. reflexivity.
      + rewrite Nat.add_1_r. eapply at_gate_S; [repeat split; eassumption|..]; reflexivity.
    - cbn [outside].
      assert (E : exists kk, cn_remap F x0 x1 x2 x3 (S (S m)) k =
                (let (k2, ws) := cn_remap F x0 x1 x2 x3 m kk in
                 (k2, WEValue (co_b F (cn_scope F k)) :: WEValue (co_d F (cn_scope F k)) :: ws)) /\
                co_avail F (cn_scope F kk) = None /\ at_gate (S g) (cn_scope F kk) /\
                co_result F (cn_scope F kk) = co_result F (cn_scope F k)).
      { cbn [cn_remap]. unfold cn_alloc at 1, cn_gate at 1. rewrite Ha.
        unfold cn_alloc at 1. cbn [set_avail cn_scope co_avail].
        match goal with |- context [cn_remap _ _ _ _ _ m ?kk] => exists kk end.
        split; [|split; [reflexivity|split; [|reflexivity]]].
        - destruct (cn_remap _ _ _ _ _ m _). reflexivity.
        - eapply at_gate_S; [exact Hg|..]; reflexivity. }
      destruct E as (kk & E & K1 & K2 & K3). rewrite E. specialize (IH (S g) kk K1 K2).
      cbv zeta in IH. change (Nat.div2 (S (S (S m)))) with (S (Nat.div2 (S m))) in HG.
      destruct IH as (I1 & I2 & I3); [lia|].
      destruct (cn_remap _ _ _ _ _ m _) as [k2 ws]. cbn [fst snd map] in *.
      destruct Hg as (A & B & C & D). split; [|split].
      + rewrite I1, !at_unit by lia. cbn [deref]. rewrite B, D. reflexivity.
      + replace (g + Nat.div2 (S (S (S m))))%nat with (S g + Nat.div2 (S m))%nat by (change (Nat.div2 (S (S (S m)))) with (S (Nat.div2 (S m))); lia). exact I2.
      + rewrite I3. exact K3.
  Qed.
  Lemma uncounted_forms G m g k : co_avail F (cn_scope F k) = None -> at_gate g (cn_scope F k) ->
    (g + Nat.div2 (S m) <= G)%nat ->
    let r := uncounted F x0 x1 x2 x3 m k in
    map dr (snd r) = map (at_ G) (outside m g) /\ at_gate (g + Nat.div2 (S m)) (cn_scope F (fst r)) /\
    co_result F (cn_scope F (fst r)) = co_result F (cn_scope F k).
  Proof.
    intros Ha Hg HG. unfold uncounted.
    pose proof (remap_forms G m g (set_counting F k false) Ha Hg HG) as H. cbv zeta in H.
    destruct (cn_remap F x0 x1 x2 x3 m (set_counting F k false)) as [k' ws]. exact H.
  Qed.

  Lemma reach_ge : forall (p : prog F) g h, (g <= reach p g h)%nat.
  Proof.
    induction p as [|a b c d p IH|a b c p IH|v p IH|lc p IH|lc p IH|w p IH|i p IH|kn ins body IHb outs p IHk];
      intros g h; cbn [reach]; auto.
    - specialize (IH (S g) h). lia.
    - specialize (IH (S g) h). lia.
    - destruct h; [apply IH|]. specialize (IH (S g) true). lia.
    - specialize (IHk (g + Nat.div2 (S (length outs)))%nat h). lia.
  Qed.

  Definition ids (k : counter F) := map (sr_id F) (cn_segs F k).
  Lemma ids_bump g c segs i : map (sr_id F) (bump_seg F g c segs i) = map (sr_id F) segs.
  Proof.
    unfold bump_seg. destruct (nth_error segs i) as [s|] eqn:E; [|reflexivity].
    rewrite map_upd. apply upd_same. rewrite nth_error_map, E. reflexivity.
  Qed.
  Lemma upd_mid {A} (l : list A) x r v : upd (l ++ x :: r) (length l) v = l ++ v :: r.
  Proof. induction l as [|y l IH]; cbn; [reflexivity|]. rewrite IH. reflexivity. Qed.
  Lemma records_cnt (p : prog F) : map (cnt F) (records x0 x1 x2 x3 yc onec hc p) = sub_sizes p.
  Proof.
    induction p as [|a b c d p IH|a b c p IH|v p IH|lc p IH|lc p IH|w p IH|i p IH|kn ins body IHb outs p IHk];
      cbn [records sub_sizes]; auto.
    cbn [map]. rewrite map_app, IHb, IHk. unfold routine_record, cnt at 1. cbn [sr_gates sr_cons].
    rewrite <- surjective_pairing. reflexivity.
  Qed.

  Lemma fp_run : forall p env fenv g av G k, cn_counting F k = true ->
    (co_seg F (cn_scope F k) < length (cn_segs F k))%nat ->
    at_gate g (cn_scope F k) -> map dr env = map (at_ G) fenv -> av_ok G (co_avail F (cn_scope F k)) av ->
    (reach p g (is_some av) <= G)%nat ->
    let k' := snd (run p env k) in
    co_result F (cn_scope F k') = horn G (own_forms p fenv g av) (co_result F (cn_scope F k)) /\
    ids k' = ids k ++ map (sr_id F) (records x0 x1 x2 x3 yc onec hc p).
  Proof.
    induction p as [|a b c d p IH|a b c p IH|v p IH|lc p IH|lc p IH|w p IH|i p IH|kn ins body IHb outs p IHk];
      intros env fenv g av G k Hc Hs Hg He Ha HG; cbn [cn_run own_forms reach records] in *.
    - cbn [snd]. rewrite app_nil_r. split; reflexivity.
    - pose proof (reach_ge p (S g) (is_some av)) as R. unfold cn_gate. rewrite Hc. cbv zeta.
      match goal with |- context [cn_run _ _ _ _ _ _ _ _ p ?e ?kk] =>
        destruct (IH e (fenv ++ [unit_form (SW KA g); unit_form (SW KB g); unit_form (SW KC g); unit_form (SW KD g)]) (S g) av G kk) as [I1 I2] end.
      + reflexivity.
      + cbn. rewrite bump_length. exact Hs.
      + eapply at_gate_S; [exact Hg|..]; reflexivity.
      + destruct Hg as (A & B & C & D). rewrite !map_app, He. cbn [map deref]. rewrite !at_unit by lia. rewrite A, B, C, D. reflexivity.
      + exact Ha.
      + exact HG.
      + split; [exact I1|]. rewrite I2. unfold ids. cbn [cn_segs]. rewrite ids_bump. reflexivity.
    - pose proof (reach_ge p (S g) (is_some av)) as R. unfold cn_gate. rewrite Hc. cbv zeta.
      match goal with |- context [cn_run _ _ _ _ _ _ _ _ p ?e ?kk] =>
        destruct (IH e (fenv ++ [unit_form (SW KA g); unit_form (SW KB g); unit_form (SW KC g)]) (S g) av G kk) as [I1 I2] end.
      + reflexivity.
      + cbn. rewrite bump_length. exact Hs.
      + eapply at_gate_S; [exact Hg|..]; reflexivity.
      + destruct Hg as (A & B & C & D). rewrite !map_app, He. cbn [map deref]. rewrite !at_unit by lia. rewrite A, B, C. reflexivity.
      + exact Ha.
      + exact HG.
      + split; [exact I1|]. rewrite I2. unfold ids. cbn [cn_segs]. rewrite ids_bump. reflexivity.
    - unfold cn_alloc, cn_gate. destruct (co_avail F (cn_scope F k)) as [w|] eqn:Ea; destruct av as [f|]; cbn in Ha; try contradiction.
      + cbn [is_some] in HG.
        match goal with |- context [cn_run _ _ _ _ _ _ _ _ p ?e ?kk] => destruct (IH e (fenv ++ [f]) g None G kk) as [I1 I2] end; auto.
        * rewrite !map_app, He. cbn [map]. rewrite Ha. reflexivity.
        * exact I.
      + cbn [is_some] in HG. pose proof (reach_ge p (S g) true) as R. rewrite Hc. cbv zeta.
        match goal with |- context [cn_run _ _ _ _ _ _ _ _ p ?e ?kk] =>
          destruct (IH e (fenv ++ [unit_form (SW KB g)]) (S g) (Some (unit_form (SW KD g))) G kk) as [I1 I2] end.
        * reflexivity.
        * cbn. rewrite bump_length. exact Hs.
        * eapply at_gate_S; [exact Hg|..]; reflexivity.
        * destruct Hg as (A & B & C & D). rewrite !map_app, He. cbn [map deref]. rewrite !at_unit by lia. rewrite B. reflexivity.
        * destruct Hg as (A & B & C & D). cbn. rewrite at_unit by lia. exact D.
        * exact HG.
        * split; [exact I1|]. rewrite I2. unfold ids. cbn [cn_segs set_avail]. rewrite ids_bump. reflexivity.
    - apply IH; auto. rewrite !map_app, He. cbn [map deref]. do 2 f_equal.
      rewrite at_lc, <- He. apply (we_lc_ok F onec env lc).
    - match goal with |- context [cn_run _ _ _ _ _ _ _ _ p ?e ?kk] => destruct (IH e fenv g av G kk) as [I1 I2] end; auto.
      + cbn. rewrite bump_length. exact Hs.
      + split.
        * rewrite I1. cbn [cn_enforce cn_scope co_result]. unfold horn at 2. cbn [fold_left]. unfold horn. f_equal. f_equal.
          rewrite at_lc, <- He. apply (we_lc_ok F onec env lc).
        * rewrite I2. unfold ids. cbn [cn_segs cn_enforce]. rewrite ids_bump. reflexivity.
    - apply IH; auto. rewrite !map_app, He. cbn [map]. do 2 f_equal. rewrite at_lookup, <- He. apply deref_lookup.
    - apply IH; auto.
    - cbv zeta. set (G' := routine_reach (length ins) body).
      set (k1 := mk_counter F _ _ _ _ _).
      assert (Li : (length (cn_segs F k ++ [mk_srec F 0 0 None]) - 1)%nat = length (cn_segs F k))
        by (rewrite app_length; simpl; lia).
      assert (G1 : at_gate 0 (cn_scope F k1)) by (repeat split; cbn; ring).
      assert (HG1 : (0 + Nat.div2 (S (length ins)) <= G')%nat) by apply reach_ge.
      pose proof (uncounted_forms G' (length ins) 0 k1 eq_refl G1 HG1) as UF. cbv zeta in UF.
      pose proof (uncounted_ok F x0 x1 x2 x3 (length ins) k1) as U. cbv zeta in U.
      destruct (uncounted F x0 x1 x2 x3 (length ins) k1) as [k2 ni] eqn:E2. cbn [fst snd] in UF, U.
      destruct UF as (UF1 & UF2 & UF3). destruct U as (U1 & U2 & U3 & U4 & U5 & _).
      assert (Hs3 : (co_seg F (cn_scope F (set_avail F k2 None)) < length (cn_segs F (set_avail F k2 None)))%nat).
      { cbn. rewrite U4, U1. cbn. rewrite Li, app_length. simpl. lia. }
      destruct (IHb ni (outside (length ins) 0) (Nat.div2 (S (length ins))) None G' (set_avail F k2 None) U5 Hs3 UF2 UF1 I (Nat.le_refl _)) as [B1 B2].
      pose proof (cn_run_ok F x0 x1 x2 x3 yc onec hc body ni (set_avail F k2 None) U5 Hs3) as BC. cbv zeta in BC.
      clear IHb. destruct (run body ni (set_avail F k2 None)) as [cenv k4] eqn:E4. cbn [snd] in B1, B2, BC.
      destruct BC as (C1 & C2 & C3 & _ & _).
      cbn [set_avail cn_scope co_seg co_avail is_some cn_segs co_result] in B1, B2, C1. unfold ids, cnts in B2, C1. cbn [set_avail cn_segs] in B2, C1.
      rewrite U1 in B2, C1. rewrite U4 in C1. cbn [k1 cn_scope fresh_scope co_seg cn_segs] in B2, C1.
      rewrite Li in C1. rewrite map_app in C1. cbn [map] in C1. change (cnt F (mk_srec F 0 0 None)) with (0, 0)%nat in C1.
      replace (length (cn_segs F k)) with (length (map (cnt F) (cn_segs F k))) in C1 by apply map_length.
      rewrite addp_last in C1. rewrite map_app in B2. cbn [map sr_id] in B2.
      rewrite <- used_scope in C1.
      assert (En : exists s, nth_error (cn_segs F k4) (length (cn_segs F k)) = Some s /\ cnt F s = scope_size body).
      { assert (X : nth_error (map (cnt F) (cn_segs F k4)) (length (cn_segs F k)) = Some (scope_size body)).
        { rewrite C1, <- app_assoc. rewrite nth_error_app2 by (rewrite map_length; lia). rewrite map_length, Nat.sub_diag. reflexivity. }
        rewrite nth_error_map in X. destruct (nth_error (cn_segs F k4) (length (cn_segs F k))) as [s|]; [|discriminate].
        exists s. split; [reflexivity|]. cbn in X. congruence. }
      destruct En as (s & En & Es).
      rewrite Li. rewrite En.
      set (segs' := upd _ _ _).
      assert (L4 : length (cn_segs F k4) = length segs') by (unfold segs'; rewrite upd_length; reflexivity).
      assert (L5 : (length (cn_segs F k) < length segs')%nat) by (rewrite <- L4; apply nth_error_Some; congruence).
      assert (Ei : map (sr_id F) segs' = map (sr_id F) (cn_segs F k) ++ map (sr_id F) (routine_record x0 x1 x2 x3 yc onec hc (length ins) body :: records x0 x1 x2 x3 yc onec hc body)).
      { unfold segs'. rewrite map_upd, B2, <- app_assoc. cbn [app].
        replace (length (cn_segs F k)) with (length (map (sr_id F) (cn_segs F k))) by apply map_length. rewrite upd_mid.
        cbn [map sr_id routine_record]. do 2 f_equal. f_equal. unfold routine_id. rewrite <- Es. cbn [cnt fst snd]. f_equal. f_equal.
        rewrite B1, UF3. apply horn_h. }
      set (k5 := mk_counter F (cn_scope F k) _ _ segs' _).
      pose proof (reach_ge p (g + Nat.div2 (S (length outs)))%nat (is_some av)) as R.
      pose proof (uncounted_forms G (length outs) g (set_avail F k5 None) eq_refl Hg ltac:(lia)) as VF. cbv zeta in VF.
      pose proof (uncounted_ok F x0 x1 x2 x3 (length outs) (set_avail F k5 None)) as V. cbv zeta in V.
      destruct (uncounted F x0 x1 x2 x3 (length outs) (set_avail F k5 None)) as [k6 po] eqn:E6. cbn [fst snd] in V, VF.
      destruct VF as (VF1 & VF2 & VF3). destruct V as (V1 & V2 & V3 & V4 & V5 & _).
      change (co_avail F (cn_scope F k5)) with (co_avail F (cn_scope F k)).
      destruct (IHk (env ++ po) (fenv ++ outside (length outs) g) (g + Nat.div2 (S (length outs)))%nat av G (set_avail F k6 (co_avail F (cn_scope F k)))) as [K1 K2].
      + exact V5.
      + cbn. rewrite V4, V1. cbn. lia.
      + exact VF2.
      + rewrite !map_app, He, VF1. reflexivity.
      + exact Ha.
      + exact HG.
      + split.
        * rewrite K1. cbn [set_avail cn_scope co_result]. rewrite VF3. reflexivity.
        * rewrite K2. unfold ids. cbn [set_avail cn_segs]. rewrite V1. cbn [set_avail cn_segs k5]. rewrite Ei.
          rewrite <- app_assoc, <- map_app. reflexivity.
  Qed.

  Lemma srec_ext (l l' : list (srec F)) : map (cnt F) l = map (cnt F) l' -> map (sr_id F) l = map (sr_id F) l' -> l = l'.
  Proof.
    revert l'. induction l as [|[g c i] l IH]; intros [|[g' c' i'] l'] A B; try discriminate; [reflexivity|].
    cbn [map] in A, B. unfold cnt at 1 3 in A. cbn in A, B. inversion A. inversion B. subst. f_equal. apply IH; assumption.
  Qed.

  Lemma records_app (p q : prog F) : records x0 x1 x2 x3 yc onec hc (prog_app p q) = records x0 x1 x2 x3 yc onec hc p ++ records x0 x1 x2 x3 yc onec hc q.
  Proof. induction p; cbn [prog_app records]; auto. cbn [app]. rewrite IHp2, app_assoc. reflexivity. Qed.
  Lemma records_outs outs : records x0 x1 x2 x3 yc onec hc (@enforce_outputs F outs) = [].
  Proof. induction outs; cbn; auto. Qed.

  Lemma metrics_records (body : prog F) (outs : list wref) g c d segs :
    metrics_eval F x0 x1 x2 x3 yc onec hc body outs = Some (g, c, d, segs) ->
    segs = mk_srec F (fst (scope_size (orchestrate body outs))) (snd (scope_size (orchestrate body outs))) None
           :: records x0 x1 x2 x3 yc onec hc body.
  Proof.
    intros H. destruct (metrics_ok F x0 x1 x2 x3 yc onec hc body outs) as (segs' & H' & Hc). rewrite H in H'. inversion H'. subst segs'.
    assert (G0 : at_gate 0 (cn_scope F (counter_new F x0 x1 x2 x3 hc))) by (repeat split; cbn; ring).
    destruct (fp_run (orchestrate body outs) [] [] 0 None _ (counter_new F x0 x1 x2 x3 hc) eq_refl (Nat.lt_0_succ 0) G0 eq_refl I (Nat.le_refl _)) as [_ Hi].
    unfold metrics_eval in H. destruct (run (orchestrate body outs) [] (counter_new F x0 x1 x2 x3 hc)) as [e k].
    destruct (_ && _); [|discriminate]. assert (Ek : cn_segs F k = segs) by congruence. cbn [snd] in Hi. unfold ids in Hi. rewrite Ek in Hi.
    assert (Er : records x0 x1 x2 x3 yc onec hc (orchestrate body outs) = records x0 x1 x2 x3 yc onec hc body).
    { unfold orchestrate. cbn [records]. rewrite records_app, records_outs. apply app_nil_r. }
    apply srec_ext.
    - rewrite Hc. cbn [map]. rewrite <- Er, records_cnt. unfold sizes. reflexivity.
    - rewrite Hi, Er. reflexivity.
  Qed.

  Lemma standalone_G nin (body : prog F) G : (routine_reach nin body <= G)%nat ->
    fingerprint_routine F x0 x1 x2 x3 yc onec hc nin body
    = Some (scalar x0 x1 x2 x3 yc onec hc G (routine_forms nin body), fst (scope_size body), snd (scope_size body)).
  Proof.
    intros HG. unfold fingerprint_routine.
    assert (G1 : at_gate 0 (cn_scope F (counter_new F x0 x1 x2 x3 hc))) by (repeat split; cbn; ring).
    assert (HG1 : (0 + Nat.div2 (S nin) <= G)%nat).
    { pose proof (reach_ge body (Nat.div2 (S nin)) false). unfold routine_reach in HG. lia. }
    pose proof (uncounted_forms G nin 0 (counter_new F x0 x1 x2 x3 hc) eq_refl G1 HG1) as UF. cbv zeta in UF.
    pose proof (uncounted_ok F x0 x1 x2 x3 nin (counter_new F x0 x1 x2 x3 hc)) as U. cbv zeta in U.
    destruct (uncounted F x0 x1 x2 x3 nin (counter_new F x0 x1 x2 x3 hc)) as [k2 ni]. cbn [fst snd] in UF, U.
    destruct UF as (UF1 & UF2 & UF3). destruct U as (U1 & U2 & U3 & U4 & U5 & _).
    assert (Hs3 : (co_seg F (cn_scope F (set_avail F k2 None)) < length (cn_segs F (set_avail F k2 None)))%nat).
    { cbn. rewrite U4, U1. cbn. lia. }
    destruct (fp_run body ni (outside nin 0) (Nat.div2 (S nin)) None G (set_avail F k2 None) U5 Hs3 UF2 UF1 I HG) as [B1 B2].
    pose proof (cn_run_ok F x0 x1 x2 x3 yc onec hc body ni (set_avail F k2 None) U5 Hs3) as BC. cbv zeta in BC.
    destruct (run body ni (set_avail F k2 None)) as [cenv k4]. cbn [snd] in B1, B2, BC. destruct BC as (C1 & _).
    cbn [set_avail cn_scope co_seg co_avail is_some cn_segs co_result] in B1, C1. unfold cnts in C1. cbn [set_avail cn_segs] in C1.
    rewrite U1, U4 in C1. cbn [counter_new cn_segs cn_scope fresh_scope co_seg map] in C1. change (cnt F (mk_srec F 0 0 None)) with (0, 0)%nat in C1.
    change (addp [(0, 0)%nat] 0) with (addp ([] ++ [(0, 0)%nat]) (@length (nat * nat) [])) in C1. rewrite addp_last, <- used_scope in C1. cbn [app] in C1.
    destruct (cn_segs F k4) as [|s r]; [discriminate|]. cbn [nth_error]. cbn [map] in C1. assert (Es : cnt F s = scope_size body) by congruence.
    rewrite B1, UF3. rewrite <- Es. cbn [cnt fst snd]. do 3 f_equal. apply horn_h.
  Qed.
  Lemma scalar_G nin (body : prog F) G : (routine_reach nin body <= G)%nat ->
    scalar x0 x1 x2 x3 yc onec hc G (routine_forms nin body) = fst (fst (routine_id x0 x1 x2 x3 yc onec hc nin body)).
  Proof.
    intros HG. pose proof (standalone_G nin body G HG) as A. rewrite (standalone_G nin body _ (Nat.le_refl _)) in A. inversion A. reflexivity.
  Qed.
End Run.

Section Values.
  Variable F : Field.
  Lemma same_forms (p p' : prog F) : same_calls p p' ->
    (forall env g av, own_forms p env g av = own_forms p' env g av) /\ (forall g h, reach p g h = reach p' g h) /\
    (own_gates p = own_gates p' /\ own_allocs p = own_allocs p' /\ own_cons p = own_cons p').
  Proof.
    induction 1 as [|a b c d a' b' c' d' k k' H IH|a b c a' b' c' k k' H IH|v v' k k' H IH|lc k k' H IH|lc k k' H IH|w k k' H IH|i k k' H IH|b b' ins ins' body body' outs outs' k k' Hi Ho Hb IHb H IH];
      [repeat split; reflexivity|..]; destruct IH as (I1 & I2 & I3 & I4 & I5); (repeat split); intros;
      cbn [own_forms reach own_gates own_allocs own_cons]; rewrite <- ?Ho, ?I1, ?I2, ?I3, ?I4, ?I5; try reflexivity.
    - destruct av; rewrite ?I1; reflexivity.
  Qed.
  Lemma same_size (p p' : prog F) : same_calls p p' -> scope_size p = scope_size p'.
  Proof. intros H. destruct (same_forms p p' H) as (_ & _ & A & B & C). unfold scope_size. rewrite A, B, C. reflexivity. Qed.
  Lemma same_id (p p' : prog F) x0 x1 x2 x3 y one h nin : same_calls p p' ->
    routine_id x0 x1 x2 x3 y one h nin p = routine_id x0 x1 x2 x3 y one h nin p'.
  Proof.
    intros H. unfold routine_id, routine_forms, routine_reach. destruct (same_forms p p' H) as (A & B & _).
    rewrite A, B, (same_size p p' H). reflexivity.
  Qed.
  Lemma same_records (p p' : prog F) x0 x1 x2 x3 y one h : same_calls p p' ->
    records x0 x1 x2 x3 y one h p = records x0 x1 x2 x3 y one h p'.
  Proof.
    induction 1 as [|a b c d a' b' c' d' k k' H IH|a b c a' b' c' k k' H IH|v v' k k' H IH|lc k k' H IH|lc k k' H IH|w k k' H IH|i k k' H IH|b b' ins ins' body body' outs outs' k k' Hi Ho Hb IHb H IH];
      cbn [records]; auto.
    rewrite IHb, IH. f_equal. unfold routine_record. rewrite (same_size _ _ Hb), Hi, (same_id _ _ _ _ _ _ _ _ _ _ Hb). reflexivity.
  Qed.
End Values.

(** different constraints are told apart *)
Section Separate.
  Variable F : Field.
  Add Field FFu31 : (f_theory F).
  Open Scope f_scope.

  Lemma poly_zero n (c : nat -> F) (rs : list F) : NoDup rs -> (n <= length rs)%nat ->
    (forall r, In r rs -> fsum n (fun i => c i * r ^ i) = 0) -> forall i, (i < n)%nat -> c i = 0.
  Proof.
    intros N L H i Hi. pose proof (roots_bound F (map c (seq 0 n)) rs N) as R.
    rewrite map_length, seq_length in R. specialize (R L).
    assert (A : Forall (fun c => c = 0) (map c (seq 0 n))).
    { apply R. intros r Hr. rewrite peval_map_seq. apply H, Hr. }
    rewrite Forall_forall in A. apply A. apply in_map, in_seq. lia.
  Qed.

  (** in the powers of y *)
  Lemma sep_y (x0 x1 x2 x3 one h : F) G (fs fs' : list (form F)) (ys : list F) : length fs = length fs' -> NoDup ys -> (length fs <= length ys)%nat ->
    (forall y, In y ys -> scalar x0 x1 x2 x3 y one h G fs = scalar x0 x1 x2 x3 y one h G fs') ->
    forall j, (j < length fs)%nat -> form_at x0 x1 x2 x3 one G (nth j fs (fun _ => 0)) = form_at x0 x1 x2 x3 one G (nth j fs' (fun _ => 0)).
  Proof.
    intros L N Ly H j Hj. set (m := length fs) in *.
    set (v := fun fs j => form_at x0 x1 x2 x3 one G (nth j fs (fun _ => 0))).
    assert (X : forall i, (i < m)%nat -> v fs (m - 1 - i)%nat - v fs' (m - 1 - i)%nat = 0).
    { apply (poly_zero m (fun i => v fs (m - 1 - i)%nat - v fs' (m - 1 - i)%nat) ys N Ly).
      intros y Hy. specialize (H y Hy). unfold scalar in H. cbv zeta in H. rewrite <- L in H. fold m in H.
      fold (v fs) in H. fold (v fs') in H.
      rewrite <- (fsum_rev F m (fun j => form_at x0 x1 x2 x3 one G (nth j fs (fun _ => 0)) * y ^ (m - 1 - j))) in H.
      rewrite <- (fsum_rev F m (fun j => form_at x0 x1 x2 x3 one G (nth j fs' (fun _ => 0)) * y ^ (m - 1 - j))) in H.
      assert (H' : fsum m (fun i => v fs (m - 1 - i)%nat * y ^ i) = fsum m (fun i => v fs' (m - 1 - i)%nat * y ^ i)).
      { transitivity (fsum m (fun i => form_at x0 x1 x2 x3 one G (nth (m - 1 - i) fs (fun _ => 0)) * y ^ (m - 1 - (m - 1 - i)))).
        { apply fsum_ext. intros i Hi. unfold v. do 2 f_equal. lia. }
        transitivity (fsum m (fun i => form_at x0 x1 x2 x3 one G (nth (m - 1 - i) fs' (fun _ => 0)) * y ^ (m - 1 - (m - 1 - i)))).
        { match type of H with ?a + ?b = ?a + ?c => transitivity (a + b - a); [ring|]; rewrite H; ring end. }
        apply fsum_ext. intros i Hi. unfold v. do 2 f_equal. lia. }
      rewrite (fsum_ext F m _ (fun i => v fs (m - 1 - i)%nat * y ^ i - v fs' (m - 1 - i)%nat * y ^ i)) by (intros; ring).
      rewrite fsum_sub, H'. ring. }
    specialize (X (m - 1 - j)%nat ltac:(lia)). replace (m - 1 - (m - 1 - j))%nat with j in X by lia.
    rewrite (fsub_eq_0 F) in X. exact X.
  Qed.

  (** in the seed *)
  Lemma sep_h (x0 x1 x2 x3 y one : F) G (fs fs' : list (form F)) (h h' : F) : y ^ length fs <> y ^ length fs' ->
    scalar x0 x1 x2 x3 y one h G fs = scalar x0 x1 x2 x3 y one h G fs' ->
    scalar x0 x1 x2 x3 y one h' G fs = scalar x0 x1 x2 x3 y one h' G fs' -> h = h'.
  Proof.
    intros N A B. unfold scalar in A, B. cbv zeta in A, B.
    assert (X : (h - h') * (y ^ length fs - y ^ length fs') = 0).
    { match type of A with ?p * ?a + ?s = ?p * ?b + ?t =>
        transitivity ((p * a + s) - (p * b + t) - ((h' * a + s) - (h' * b + t))); [ring|]; rewrite A, B; ring end. }
    destruct (fmul_integral F _ _ X) as [E|E]; rewrite (fsub_eq_0 F) in E; [exact E|contradiction].
  Qed.

  Lemma sep_len (x0 x1 x2 x3 one : F) G (fs fs' : list (form F)) (H Y : list F) : (length fs < length fs')%nat ->
    NoDup H -> (2 <= length H)%nat -> NoDup Y -> (length fs' < length Y)%nat ->
    (forall h y, In h H -> In y Y -> scalar x0 x1 x2 x3 y one h G fs = scalar x0 x1 x2 x3 y one h G fs') -> False.
  Proof.
    intros L NH LH NY LY E.
    assert (Z : forall h, In h H -> h = 0).
    { intros h Hh. set (m := length fs) in *. set (m' := length fs') in *.
      set (v := fun fs j => form_at x0 x1 x2 x3 one G (nth j fs (fun _ => 0))).
      set (c := fun i : nat => ((if Nat.eqb i m then h else 0) + (if Nat.ltb i m then v fs (m - 1 - i)%nat else 0)) -
                         ((if Nat.eqb i m' then h else 0) + (if Nat.ltb i m' then v fs' (m' - 1 - i)%nat else 0))).
      assert (P : forall (n : nat) (gs : list (form F)) y, length gs = n -> (n <= m')%nat -> scalar x0 x1 x2 x3 y one h G gs =
        fsum (S m') (fun i => ((if Nat.eqb i n then h else 0) + (if Nat.ltb i n then v gs (n - 1 - i)%nat else 0)) * y ^ i)).
      { intros n gs y <- Hn. unfold scalar. cbv zeta.
        rewrite <- (fsum_rev F (length gs) (fun j => form_at x0 x1 x2 x3 one G (nth j gs (fun _ => 0)) * y ^ (length gs - 1 - j))).
        rewrite (fsum_ext F (S m') _ (fun i => (if Nat.eqb i (length gs) then h * y ^ i else 0) + (if Nat.ltb i (length gs) then v gs (length gs - 1 - i)%nat * y ^ i else 0)))
          by (intros i _; destruct (Nat.eqb i (length gs)), (Nat.ltb i (length gs)); ring).
        rewrite fsum_add, fsum_delta. replace (Nat.ltb (length gs) (S m')) with true by (symmetry; apply Nat.ltb_lt; lia).
        f_equal. rewrite (fsum_extend F (length gs) (S m')).
        - apply fsum_ext. intros i Hi. apply Nat.ltb_lt in Hi as Hi'. rewrite Hi'. unfold v. do 2 f_equal. lia.
        - lia.
        - intros i Hi. replace (Nat.ltb i (length gs)) with false by (symmetry; apply Nat.ltb_ge; lia). reflexivity. }
      assert (C0 : c m' = 0).
      { apply (poly_zero (S m') c Y NY LY); [|lia]. intros y Hy. specialize (E h y Hh Hy).
        rewrite (P m fs y eq_refl ltac:(lia)), (P m' fs' y eq_refl (Nat.le_refl _)) in E.
        rewrite (fsum_ext F (S m') _ (fun i => ((if Nat.eqb i m then h else 0) + (if Nat.ltb i m then v fs (m - 1 - i)%nat else 0)) * y ^ i
          - ((if Nat.eqb i m' then h else 0) + (if Nat.ltb i m' then v fs' (m' - 1 - i)%nat else 0)) * y ^ i)) by (intros i _; unfold c; ring).
        rewrite fsum_sub, E. ring. }
      unfold c in C0. rewrite Nat.eqb_refl, Nat.ltb_irrefl in C0.
      replace (Nat.eqb m' m) with false in C0 by (symmetry; apply Nat.eqb_neq; lia).
      replace (Nat.ltb m' m) with false in C0 by (symmetry; apply Nat.ltb_ge; lia).
      transitivity (- (0 + 0 - (h + 0))); [ring|]. rewrite C0. ring. }
    destruct H as [|a [|b r]]; [simpl in LH; lia|simpl in LH; lia|].
    inversion NH as [|? ? Q]. apply Q. left. rewrite (Z a), (Z b); [reflexivity|right; left; reflexivity|left; reflexivity].
  Qed.

  (** in the values of the places *)
  Lemma sep_x (X0 X1 X2 X3 O : list F) G (f f' : form F) :
    NoDup X0 -> NoDup X1 -> NoDup X2 -> NoDup X3 -> NoDup O ->
    (G < length X0)%nat -> (G < length X1)%nat -> (G < length X2)%nat -> (G < length X3)%nat -> (2 <= length O)%nat ->
    (forall x0 x1 x2 x3 one, In x0 X0 -> In x1 X1 -> In x2 X2 -> In x3 X3 -> In one O ->
       form_at x0 x1 x2 x3 one G f = form_at x0 x1 x2 x3 one G f') ->
    f SOne = f' SOne /\ forall k i, (i < G)%nat -> f (SW k i) = f' (SW k i).
  Proof.
    intros N0 N1 N2 N3 NO L0 L1 L2 L3 LO H.
    set (d := fun s => f s - f' s).
    assert (Hd : forall x0 x1 x2 x3 one, In x0 X0 -> In x1 X1 -> In x2 X2 -> In x3 X3 -> In one O ->
      d SOne * one + (fsum G (fun i => d (SW KA i) * x0 ^ S i) + fsum G (fun i => d (SW KB i) * x1 ^ S i) +
                      (fsum G (fun i => d (SW KC i) * x2 ^ S i) + fsum G (fun i => d (SW KD i) * x3 ^ S i))) = 0).
    { intros x0 x1 x2 x3 one I0 I1 I2 I3 IO. specialize (H _ _ _ _ _ I0 I1 I2 I3 IO). rewrite <- !fsum_add.
      transitivity (form_at x0 x1 x2 x3 one G f - form_at x0 x1 x2 x3 one G f'); [|rewrite H; ring].
      unfold form_at, d.
      transitivity (f SOne * one - f' SOne * one +
        (fsum G (fun i => f (SW KA i) * x0 ^ S i + f (SW KB i) * x1 ^ S i + (f (SW KC i) * x2 ^ S i + f (SW KD i) * x3 ^ S i))
         - fsum G (fun i => f' (SW KA i) * x0 ^ S i + f' (SW KB i) * x1 ^ S i + (f' (SW KC i) * x2 ^ S i + f' (SW KD i) * x3 ^ S i)))); [|ring].
      rewrite <- fsum_sub. f_equal; [ring|]. apply fsum_ext. intros i _. ring. }
    (* one variable at a time *)
    assert (V : forall (X : list F) (c : nat -> F) (r : F), NoDup X -> (G < length X)%nat ->
      (forall x, In x X -> r + fsum G (fun i => c i * x ^ S i) = 0) -> forall i, (i < G)%nat -> c i = 0).
    { intros X c r N L K i Hi.
      apply (poly_zero (S G) (fun j => match j with O => r | S j' => c j' end) X N L) with (i := S i); [|lia].
      intros x Hx. rewrite fsum_S_first. cbn [fpow]. rewrite <- (K x Hx). f_equal. ring. }
    assert (E0 : exists a, In a X0) by (destruct X0 as [|a]; [simpl in L0; lia|exists a; left; reflexivity]).
    assert (E1 : exists a, In a X1) by (destruct X1 as [|a]; [simpl in L1; lia|exists a; left; reflexivity]).
    assert (E2 : exists a, In a X2) by (destruct X2 as [|a]; [simpl in L2; lia|exists a; left; reflexivity]).
    assert (E3 : exists a, In a X3) by (destruct X3 as [|a]; [simpl in L3; lia|exists a; left; reflexivity]).
    assert (EO : exists a b, In a O /\ In b O /\ a <> b).
    { destruct O as [|a [|b r]]; [simpl in LO; lia|simpl in LO; lia|]. exists a, b. repeat split; [left; reflexivity|right; left; reflexivity|].
      inversion NO as [|? ? Q]. intros ->. apply Q. left. reflexivity. }
    destruct E0 as [a0 A0], E1 as [a1 A1], E2 as [a2 A2], E3 as [a3 A3], EO as (o & o' & Ho & Ho' & No).
    assert (Dk : forall k i, (i < G)%nat -> d (SW k i) = 0).
    { intros [| | |].
      - apply (V X0 (fun i => d (SW KA i)) (d SOne * o + (fsum G (fun i => d (SW KB i) * a1 ^ S i) + (fsum G (fun i => d (SW KC i) * a2 ^ S i) + fsum G (fun i => d (SW KD i) * a3 ^ S i)))) N0 L0).
        intros x Hx. rewrite <- (Hd x a1 a2 a3 o) by assumption. ring.
      - apply (V X1 (fun i => d (SW KB i)) (d SOne * o + (fsum G (fun i => d (SW KA i) * a0 ^ S i) + (fsum G (fun i => d (SW KC i) * a2 ^ S i) + fsum G (fun i => d (SW KD i) * a3 ^ S i)))) N1 L1).
        intros x Hx. rewrite <- (Hd a0 x a2 a3 o) by assumption. ring.
      - apply (V X2 (fun i => d (SW KC i)) (d SOne * o + (fsum G (fun i => d (SW KA i) * a0 ^ S i) + (fsum G (fun i => d (SW KB i) * a1 ^ S i) + fsum G (fun i => d (SW KD i) * a3 ^ S i)))) N2 L2).
        intros x Hx. rewrite <- (Hd a0 a1 x a3 o) by assumption. ring.
      - apply (V X3 (fun i => d (SW KD i)) (d SOne * o + (fsum G (fun i => d (SW KA i) * a0 ^ S i) + (fsum G (fun i => d (SW KB i) * a1 ^ S i) + fsum G (fun i => d (SW KC i) * a2 ^ S i)))) N3 L3).
        intros x Hx. rewrite <- (Hd a0 a1 a2 x o) by assumption. ring. }
    split.
    - assert (Z1 : d SOne * (o - o') = 0).
      { pose proof (Hd a0 a1 a2 a3 o A0 A1 A2 A3 Ho) as P. pose proof (Hd a0 a1 a2 a3 o' A0 A1 A2 A3 Ho') as Q.
        match type of P with ?u + ?t = 0 => transitivity ((d SOne * o + t) - (d SOne * o' + t)); [ring|]; rewrite P, Q; ring end. }
      destruct (fmul_integral F _ _ Z1) as [E|E]; unfold d in E; rewrite (fsub_eq_0 F) in E; [exact E|contradiction].
    - intros k i Hi. specialize (Dk k i Hi). unfold d in Dk. rewrite (fsub_eq_0 F) in Dk. exact Dk.
  Qed.
End Separate.

(** the constraints mention only places in use *)
Section Support.
  Variable F : Field.
  Add Field FFu34 : (f_theory F).
  Open Scope f_scope.
  Definition supp (g : nat) (f : form F) : Prop := forall k i, (g <= i)%nat -> f (SW k i) = 0.
  Lemma supp_mono g g' f : (g <= g')%nat -> supp g f -> supp g' f.
  Proof. intros L H k i Hi. apply H. lia. Qed.
  Lemma supp_one g : supp g (unit_form SOne).
  Proof. intros k i _. destruct k; reflexivity. Qed.
  Lemma supp_unit g k i : (i < g)%nat -> supp g (unit_form (SW k i)).
  Proof.
    intros L k' j Hj. assert (N : Nat.eqb j i = false) by (apply Nat.eqb_neq; lia).
    unfold unit_form. destruct k', k; cbn [slot_eqb]; try reflexivity; rewrite N; reflexivity.
  Qed.
  Lemma supp_lookup g env r : Forall (supp g) env -> supp g (lookup (unit_form SOne) env r).
  Proof.
    intros H. destruct r as [|i]; cbn [lookup]; [apply supp_one|].
    destruct (Nat.lt_ge_cases i (length env)) as [L|L]; [|rewrite nth_overflow by exact L; apply supp_one].
    rewrite Forall_forall in H. apply H, nth_In, L.
  Qed.
  Lemma supp_lc g env lc : Forall (supp g) env -> supp g (lc_form env lc).
  Proof.
    intros H k i Hi. unfold lc_form, lin_spec. apply fsum_zero. intros j _.
    assert (L : forall r, lookup (unit_form SOne) env r (SW k i) = 0) by (intros r; apply (supp_lookup g env r H k i Hi)).
    destruct (nth_error lc j) as [op|]; [|ring]. destruct op as [w c|c|w|w|ts]; cbn [call_sum]; rewrite ?L; try ring.
    enough (E : lsum (map (fun t => c_value (snd t) * lookup (unit_form SOne) env (fst t) (SW k i)) ts) = 0) by (rewrite E; ring).
    induction ts as [|t ts IH]; [reflexivity|]. unfold lsum in *. cbn [map fold_right]. rewrite IH, L. ring.
  Qed.
  Lemma supp_outside : forall m g, Forall (supp (g + Nat.div2 (S m))) (@outside F m g).
  Proof.
    induction m as [| |m IH] using two_step; intros g.
    - constructor.
    - repeat constructor. apply supp_unit. cbn. lia.
    - change (Nat.div2 (S (S (S m)))) with (S (Nat.div2 (S m))). cbn [outside].
      constructor; [apply supp_unit; lia|]. constructor; [apply supp_unit; lia|].
      replace (g + S (Nat.div2 (S m)))%nat with (S g + Nat.div2 (S m))%nat by lia. apply IH.
  Qed.
  Lemma supp_up g g' env : (g <= g')%nat -> Forall (supp g) env -> Forall (supp g') env.
  Proof. intros L. apply Forall_impl. intros f. apply supp_mono, L. Qed.
  Lemma supp_forms : forall (p : prog F) env g av, Forall (supp g) env -> (forall f, av = Some f -> supp g f) ->
    Forall (supp (reach p g (is_some av))) (own_forms p env g av).
  Proof.
    induction p as [|a b c d p IH|a b c p IH|v p IH|lc p IH|lc p IH|w p IH|i p IH|kn ins body IHb outs p IHk];
      intros env g av He Ha; cbn [own_forms reach].
    - constructor.
    - apply IH.
      + apply Forall_app. split; [apply (supp_up g); [lia|exact He]|]. repeat constructor; apply supp_unit; lia.
      + intros f E. apply (supp_mono g); [lia|auto].
    - apply IH.
      + apply Forall_app. split; [apply (supp_up g); [lia|exact He]|]. repeat constructor; apply supp_unit; lia.
      + intros f E. apply (supp_mono g); [lia|auto].
    - destruct av as [f|]; cbn [is_some].
      + apply (IH _ _ None); [|discriminate]. apply Forall_app. split; [exact He|]. repeat constructor. apply Ha. reflexivity.
      + apply (IH _ _ (Some (unit_form (SW KD g)))).
        * apply Forall_app. split; [apply (supp_up g); [lia|exact He]|]. repeat constructor; apply supp_unit; lia.
        * intros f [= <-]. apply supp_unit. lia.
    - apply IH; [|exact Ha]. apply Forall_app. split; [exact He|]. repeat constructor. apply supp_lc, He.
    - constructor; [|apply IH; assumption]. apply (supp_mono g); [apply reach_ge|]. apply supp_lc, He.
    - apply IH; [|exact Ha]. apply Forall_app. split; [exact He|]. repeat constructor. apply supp_lookup, He.
    - apply IH; assumption.
    - apply IHk.
      + apply Forall_app. split; [apply (supp_up g); [lia|exact He]|]. apply supp_outside.
      + intros f E. apply (supp_mono g); [lia|auto].
  Qed.
  Lemma supp_routine nin (body : prog F) j : supp (routine_reach nin body) (nth j (routine_forms nin body) (fun _ => 0)).
  Proof.
    unfold routine_reach, routine_forms. pose proof (supp_forms body (outside nin 0) (Nat.div2 (S nin)) None (supp_outside nin 0) ltac:(discriminate)) as H. cbn [is_some] in H.
    destruct (Nat.lt_ge_cases j (length (own_forms body (outside nin 0) (Nat.div2 (S nin)) None))) as [L|L].
    - rewrite Forall_forall in H. apply H, nth_In, L.
    - rewrite nth_overflow by exact L. intros k i _. reflexivity.
  Qed.
  Lemma scalar_ext x0 x1 x2 x3 y one h G (fs fs' : list (form F)) : length fs = length fs' ->
    (forall j s, (j < length fs)%nat -> nth j fs (fun _ => 0) s = nth j fs' (fun _ => 0) s) ->
    scalar x0 x1 x2 x3 y one h G fs = scalar x0 x1 x2 x3 y one h G fs'.
  Proof.
    intros L H. unfold scalar. cbv zeta. rewrite <- L. f_equal. apply fsum_ext. intros j Hj. f_equal.
    apply at_ext. intros s. apply H, Hj.
  Qed.
End Support.
