(** C56: the circuits of the other curve.  What the nested polynomials of a proof
    establish, and which wires make nested polynomials that pass. *)
From Coq Require Import List Arith NArith Bool Lia Ring Field.
From Verif Require Import FieldDef ModDef ArithModel ArithSpec ArithProofs FFTModel FFTProofs SparseModel SparseSpec SparseProofs CircModel CircSpec GadgetModel GadgetSpec SpongeModel
  StageModel StageSpec StageProofs RegModel RegSpec RegProofs RegProofs2 PointSpec EndoSpec EndoProofs EscModel EscSpec ParSpec PcdModel PcdSpec RecModel RecSpec CompileModel CompileSpec CompileSpec2 CompileProofs CompileProofs2
  AppModel AppSpec AppProofs Props_Reg Props_Stage Props_App Props_Comp Props_Esc Props_Step VerifyModel VerifySpec VerifySpec2 VerifyProofs VerifyProofs4 VerifyProofs8 VerifyProofs10 Props_Verify
  NestedModel NestedSpec NestedProofs.
Import ListNotations.
Open Scope f_scope.
Local Open Scope nat_scope.

(** ** when the registry of the nested circuits builds *)
(** Exactly when every step fits the rank, the two stages and the chain of bridge stages
    (24 gates behind gate 0) fit it, and there is room for the circuits. *)
Theorem C56_builds : forall (F : Field) (T : TwoAdic F) (lg : nat) (repr : F -> N) hash to_bytes from_uniform f_of_u64
    (x0 x1 x2 x3 yc onec hc zeta : F) (nbits np i k : nat),
  let n := 2 ^ lg in let pts := 2 * (1 + i + k) in
  inputs_len np = Some i -> num_steps np = Some k -> ta_S T <= 32 ->
  (forall w w' : F, fpow w (2 ^ Nat.log2_up (k + 11)) = f1 -> fpow w' (2 ^ Nat.log2_up (k + 11)) = f1 -> omega_key F repr w = omega_key F repr w' -> w = w') ->
  ((exists sb nested, nested_register_all F k (nested_obj zeta x0 x1 x2 x3 yc onec hc lg nbits np) (rb_new F) = Some sb /\
      finalize F T lg repr hash to_bytes from_uniform f_of_u64 sb = Some nested) <->
   (forall s, s < k -> CompileSpec2.registered n (esc_stages nbits pts) (s_esc_step zeta np i k s)) /\
   1 + (nbits + 1) / 2 + (1 + i + k) <= n /\ 25 <= n /\ k + 11 <= 4 * n /\ Nat.log2_up (k + 11) <= ta_S T).
Proof.
  intros F T lg repr hash to_bytes from_uniform f_of_u64 x0 x1 x2 x3 yc onec hc zeta nbits np i k n pts Hi Hk S32 inj.
  set (nobj := nested_obj zeta x0 x1 x2 x3 yc onec hc lg nbits np).
  assert (Hp : pts_values np = Some pts) by (unfold pts_values; now rewrite Hi, Hk).
  assert (Hm : forall pa v, mask_obj (F := F) lg (stage_mask n pa v) <> None <-> skip_gates pa + stage_gates v <= n).
  { intros pa v. assert (1 <= skip_gates pa) by (induction pa; cbn [skip_gates]; lia). unfold stage_mask, mask_new. destruct (Nat.eqb_spec (skip_gates pa) 0); [lia|].
    unfold mask_obj. destruct (Nat.ltb_spec n (skip_gates pa + stage_gates v)); cbn [option_map]; split; intros Q; try congruence; try lia; contradiction. }
  assert (Hfin : forall pa v, mask_obj (F := F) lg (stage_final_mask n pa v) <> None <-> skip_gates pa + stage_gates v <= n).
  { intros pa v. assert (1 <= skip_gates pa) by (induction pa; cbn [skip_gates]; lia). unfold stage_final_mask, mask_new_final. destruct (Nat.eqb_spec (skip_gates pa + stage_gates v) 0); [lia|].
    unfold mask_obj. destruct (Nat.ltb_spec n (skip_gates pa + stage_gates v)); cbn [option_map]; split; intros Q; try congruence; try lia; contradiction. }
  assert (Gp : stage_gates pts = 1 + i + k) by (rewrite ceil2; unfold pts; replace (2 * (1 + i + k) + 1) with (1 + (1 + i + k) * 2) by lia; rewrite Nat.div_add by lia; reflexivity).
  assert (Gb : stage_gates nbits = (nbits + 1) / 2) by apply ceil2.
  assert (Hs : forall s, s < k -> nobj (NStep s) <> None <-> CompileSpec2.registered n (esc_stages nbits pts) (s_esc_step zeta np i k s)).
  { intros s L. unfold nobj, nested_obj, step_new. rewrite Hi, Hk, Hp. apply Nat.ltb_lt in L. rewrite L. cbn [obind]. unfold multi_obj, CompileSpec2.registered.
    destruct (sprog (esc_stages nbits pts) (s_esc_step zeta np i k s)) as [[body outs]|]; cbn [obind fst snd].
    - rewrite (proj1 (C21_objects F x0 x1 x2 x3 yc onec hc lg body outs)). split; [intros Hf; now exists body, outs|]. intros (b & o & E & Hf). injection E as <- <-. exact Hf.
    - split; [congruence|]. intros (b & o & E & _). discriminate. }
  assert (All : (forall id, In id (ncid_all k) -> nobj id <> None) <->
    (forall s, s < k -> CompileSpec2.registered n (esc_stages nbits pts) (s_esc_step zeta np i k s)) /\ 1 + (nbits + 1) / 2 + (1 + i + k) <= n /\ 25 <= n).
  { split.
    - intros H. split; [intros s L; apply Hs; [exact L|]; apply H; unfold ncid_all; apply in_or_app; left; apply in_map, in_seq; lia|]. split.
      + pose proof (H NPoints (mask_in k NPoints I)) as X. unfold nobj, nested_obj in X. rewrite Hi, Hk, Hp in X. apply Hm in X. cbn [skip_gates] in X. rewrite Gp, Gb in X. exact X.
      + pose proof (H NBridgeEval (mask_in k NBridgeEval I)) as X. unfold nobj, nested_obj in X. rewrite Hi, Hk, Hp in X. apply Hm in X. exact X.
    - intros (H1 & H2 & H3) id Hid. destruct id.
      { unfold ncid_all in Hid. apply in_app_or in Hid. destruct Hid as [Hid|Hid]; [|cbn in Hid; decompose [or] Hid; try discriminate; contradiction].
        apply in_map_iff in Hid. destruct Hid as (s' & E & Hs'). injection E as ->. apply in_seq in Hs'. apply Hs; [lia|]. apply H1. lia. }
      all: unfold nobj, nested_obj; rewrite Hi, Hk, Hp; first [apply Hfin | apply Hm]; cbn [skip_gates]; rewrite ?Gp, ?Gb; try (cbn; lia); lia. }
  assert (Reg : nested_register_all F k nobj (rb_new F) <> None <-> forall id, In id (ncid_all k) -> nobj id <> None).
  { unfold nested_register_all. rewrite nested_fold. destruct (filter_steps k) as (FS1 & FS2). rewrite FS1, FS2. cbn [rb_new rb_internal rb_bonding rb_steps rb_app app].
    set (ns := map NStep (seq 0 k)). set (nm := [NEndoscalar; NPoints; NPointsFinal; NBridgePreamble; NBridgeSPrime; NBridgeInnerError; NBridgeOuterError; NBridgeAB; NBridgeQuery; NBridgeF; NBridgeEval]).
    pose proof (objs_some nobj ns) as O1. pose proof (objs_some nobj nm) as O2.
    assert (Eall : ncid_all k = ns ++ nm) by reflexivity. rewrite Eall.
    destruct (objs nobj ns) as [on|] eqn:Eon; cbn [obind].
    - destruct (objs nobj nm) as [onm|] eqn:Eonm; cbn [obind].
      + apply objs_len in Eon, Eonm. unfold num_internal_circuits. cbn [rb_internal rb_bonding rb_steps rb_app length]. unfold ns in Eon. rewrite map_length, seq_length in Eon. unfold nm in Eonm. cbn [length] in Eonm.
        match goal with |- context[?a =? ?b] => replace a with b by (cbn [rb_new rb_internal rb_bonding length]; lia) end. rewrite Nat.eqb_refl. split; [|discriminate]. intros _ id Hid. apply in_app_or in Hid. destruct Hid as [Hid|Hid]; [apply O1|apply O2]; assumption || discriminate.
      + split; [congruence|]. intros H. exfalso. apply (proj2 O2); [|reflexivity]. intros id Hid. apply H, in_or_app. now right.
    - split; [congruence|]. intros H. exfalso. apply (proj2 O1); [|reflexivity]. intros id Hid. apply H, in_or_app. now left. }
  assert (Fin : forall sb, nested_register_all F k nobj (rb_new F) = Some sb ->
    finalize F T lg repr hash to_bytes from_uniform f_of_u64 sb <> None <-> k + 11 <= 4 * n /\ Nat.log2_up (k + 11) <= ta_S T).
  { intros sb E. unfold nested_register_all in E. rewrite nested_fold in E. destruct (filter_steps k) as (FS1 & FS2). rewrite FS1, FS2 in E. cbn [rb_new rb_internal rb_bonding rb_steps rb_app app] in E.
    destruct (objs nobj (map NStep (seq 0 k))) as [on|] eqn:Eon; cbn [obind] in E; [|discriminate].
    match type of E with context[objs nobj ?s] => destruct (objs nobj s) as [onm|] eqn:Eonm; cbn [obind] in E; [|discriminate] end.
    destruct (_ =? _) in E; [|discriminate]. injection E as <-.
    destruct (forall_exists2 (obj_is lg) (reg_order (mk_builder F on onm [] []))) as (ss & Fss).
    { apply Forall_forall. intros o Ho. unfold reg_order in Ho. cbn [rb_internal rb_bonding rb_steps rb_app app] in Ho. rewrite app_nil_r in Ho. apply in_app_or in Ho.
      assert (Ho' : exists id, nobj id = Some o) by (destruct Ho as [Ho|Ho]; [destruct (objs_in _ _ _ _ Eon Ho) as (id & _ & E)|destruct (objs_in _ _ _ _ Eonm Ho) as (id & _ & E)]; now exists id).
      destruct Ho' as (id & E). exact (nested_obj_is F x0 x1 x2 x3 yc onec hc zeta lg nbits np id o E). }
    pose proof (forall2_length _ _ _ Fss) as Ls. unfold reg_order in Ls. cbn [rb_internal rb_bonding rb_steps rb_app app] in Ls. rewrite app_nil_r, app_length in Ls.
    apply objs_len in Eon, Eonm. rewrite map_length, seq_length in Eon. cbn [length] in Eonm.
    assert (Ls' : length ss = k + 11) by lia.
    destruct (C21_finalize F T lg repr hash to_bytes from_uniform f_of_u64 (mk_builder F on onm [] []) ss S32 Fss) as [Y _]; rewrite Ls' in *; [exact inj|exact Y]. }
  split.
  - intros (sb & nested & E1 & E2). destruct (proj1 All (proj1 Reg ltac:(congruence))) as (A1 & A2 & A3). destruct (proj1 (Fin sb E1) ltac:(congruence)). auto.
  - intros (A1 & A2 & A3 & A4). pose proof (proj2 Reg (proj2 All (conj A1 (conj A2 A3)))) as R. destruct (nested_register_all F k nobj (rb_new F)) as [sb|]; [|congruence].
    pose proof (proj2 (Fin sb eq_refl) A4) as R'. destruct (finalize F T lg repr hash to_bytes from_uniform f_of_u64 sb) as [nested|] eqn:En; [|congruence]. exists sb, nested. auto.
Qed.
Print Assumptions C56_builds.

Section C56.
Variables (F : Field) (T : TwoAdic F) (lg : nat) (repr : F -> N).
Variables (hash : list N -> list N) (to_bytes : F -> list N) (from_uniform : list N -> F) (f_of_u64 : N -> F).
Variables (x0 x1 x2 x3 yc onec hc zeta : F) (nbits np i k : nat).
Hypothesis Hi : inputs_len np = Some i.
Hypothesis Hk : num_steps np = Some k.
Local Notation n := (2 ^ lg).
Local Notation pts := (2 * (1 + i + k)).
Local Notation nobj := (nested_obj zeta x0 x1 x2 x3 yc onec hc lg nbits np).
Variables (sb : builder F) (nested : registry F).
Hypothesis S32 : ta_S T <= 32.
Hypothesis Hf : finalize F T lg repr hash to_bytes from_uniform f_of_u64 sb = Some nested.
Hypothesis Ct : (N.of_nat (k + 11) < 2 ^ 32)%N.
Hypothesis inj : forall w w' : F, fpow w (2 ^ Nat.log2_up (k + 11)) = f1 -> fpow w' (2 ^ Nat.log2_up (k + 11)) = f1 -> omega_key F repr w = omega_key F repr w' -> w = w'.
Local Notation cy := (fun i y => circuit_y F T lg repr nested (N.of_nat i) y).
Let Hp : pts_values np = Some pts.
Proof. unfold pts_values. now rewrite Hi, Hk. Qed.
Let Hn : 0 < n. Proof. pose proof (Nat.pow_nonzero 2 lg); lia. Qed.

Section Slots.
Hypothesis Lo : length (reg_order sb) = k + 11.
Hypothesis Sl : forall id, In id (ncid_all k) -> exists i, nested_circuit_index k id = Some i /\ nth_error (reg_order sb) i = nobj id /\ nobj id <> None.
Lemma lg_sb : log2_circuits F sb = Nat.log2_up (k + 11).
Proof. unfold log2_circuits. now rewrite <- order_length, Lo. Qed.
Lemma inj_sb : forall w w' : F, fpow w (2 ^ log2_circuits F sb) = f1 -> fpow w' (2 ^ log2_circuits F sb) = f1 -> omega_key F repr w = omega_key F repr w' -> w = w'.
Proof. rewrite lg_sb. exact inj. Qed.
Lemma slots_sb : forall id, In id (ncid_all k) -> exists o, nobj id = Some o /\ nth_error (reg_order sb) (nested_slot k id) = Some o.
Proof.
  intros id Hid. destruct (Sl id Hid) as (j & Ej & En & Ne). destruct (slot_ok k Ct id Hid) as [Es _]. rewrite Es in Ej. injection Ej as <-.
  destruct (nobj id) as [o|]; [|congruence]. exists o. auto.
Qed.
Lemma cap_sb : k + 11 <= 4 * n.
Proof. destruct (finalize_inv F T repr lg hash to_bytes from_uniform f_of_u64 sb nested Hf) as (L & _). rewrite <- Lo, order_length. exact L. Qed.
Lemma nclaim_ext z (sy sy' : nat -> poly F) rp : (forall j, j < k + 11 -> sy j = sy' j) ->
  Forall (nclaim_holds n k z sy) (nested_own f1 k rp ++ nested_bond f0 k [rp]) -> Forall (nclaim_holds n k z sy') (nested_own f1 k rp ++ nested_bond f0 k [rp]).
Proof.
  intros E H. rewrite Forall_forall in H |- *. intros c Hc. specialize (H c Hc).
  assert (X : forall id, In id (ncid_all k) -> sy (nested_slot k id) = sy' (nested_slot k id)) by (intros id Hid; apply E; now apply (slot_ok k Ct)).
  assert (Y : exists id rs v, In id (ncid_all k) /\ (c = (NInt id rs, v) \/ c = (NBond id rs, v))).
  { apply in_app_or in Hc. destruct Hc as [Hc|Hc].
    - unfold nested_own in Hc. apply in_map_iff in Hc. destruct Hc as (s & <- & Hs). eexists _, _, _. split; [|left; reflexivity]. apply in_seq in Hs. apply mask_in. lia.
    - unfold nested_bond in Hc. cbn [In map] in Hc. decompose [or] Hc; try contradiction; subst c; eexists _, _, _; (split; [|right; reflexivity]); now apply mask_in. }
  destruct Y as (id & rs & v & Hid & [->| ->]); unfold nclaim_holds, nb_coeff in H |- *; cbn [fst snd] in H |- *; rewrite <- (X id Hid); exact H.
Qed.
Lemma syr_is y sy : (forall j, j < k + 11 -> cy j y = Some (sy j)) -> forall j, j < k + 11 -> sy j = syr F T lg repr nested y j.
Proof. intros E j Hj. unfold syr. now rewrite (E j Hj). Qed.

Lemma objs_sb : Forall (fun o => exists s, obj_is lg o s) (reg_order sb).
Proof.
  apply Forall_forall. intros o Ho. apply In_nth_error in Ho. destruct Ho as (j & Ej).
  assert (Lj : j < k + 11) by (rewrite <- Lo; apply nth_error_Some; congruence).
  assert (X : exists id, In id (ncid_all k) /\ nested_circuit_index k id = Some j).
  { assert (LA : length (ncid_all k) = k + 11) by (unfold ncid_all; rewrite app_length, map_length, seq_length; reflexivity).
    destruct (nth_error (ncid_all k) j) as [id|] eqn:Ei'; [|apply nth_error_None in Ei'; lia]. exists id. split; [eapply nth_error_In; eauto|].
    unfold nested_circuit_index. rewrite (proj2 (position_ok ncid_eqb ncid_eqb_eq (ncid_all k) id j (ncid_nodup k)) Ei'). cbn [obind].
    unfold circuit_index_new. destruct (N.ltb_spec (N.of_nat j) (2 ^ 32)) as [L|L]; [reflexivity|]. exfalso. apply (N.lt_irrefl (N.of_nat j)).
    eapply N.lt_le_trans; [|exact L]. eapply N.lt_trans; [|exact Ct]. lia. }
  destruct X as (id & Iid & Ein). destruct (Sl id Iid) as (j' & Ej' & En & _). rewrite Ein in Ej'. injection Ej' as <-. rewrite Ej in En.
  exact (nested_obj_is F x0 x1 x2 x3 yc onec hc zeta lg nbits np id o (eq_sym En)).
Qed.
Lemma cy_sb y j : j < k + 11 -> cy j y = Some (syr F T lg repr nested y j).
Proof.
  intros Hj. apply (slot_wf F T lg repr hash to_bytes from_uniform f_of_u64 sb nested S32 Hf inj_sb objs_sb). rewrite lg_sb.
  eapply Nat.lt_le_trans; [exact Hj|]. apply Nat.log2_up_spec. lia.
Qed.

Lemma sound_sb rp ys : (forall c, wf 0 (4 * n) (rp c)) -> nested_accepted n k cy rp ys -> exists w, nested_proved zeta n nbits np i k pts rp w.
Proof.
  intros Wp (Nd & Ly & Cl).
  apply (nested_sound F T lg repr hash to_bytes from_uniform f_of_u64 S32 sb nested Hf inj_sb x0 x1 x2 x3 yc onec hc zeta nbits np i k pts Hi Hk Hp slots_sb cap_sb rp Wp ys Nd Ly).
  intros y Iy. destruct (Cl y Iy) as (zs & Nz & Lz & Hz). exists zs. split; [exact Nz|]. split; [exact Lz|]. intros z Iz.
  destruct (Hz z Iz) as (sy & Es & H). apply (nclaim_ext z sy); [now apply syr_is|exact H].
Qed.
Lemma complete_sb (w : esc_wires F) (ae ap : F) (bas : list F) (bvs : list (list F)) :
  wires_sized nbits i k w -> (forall s, s < k -> esc_holds zeta np w s) -> (forall j, j < 8 -> length (nth j bvs []) <= nth j bridge_values 0) ->
  exists rp : nrxid -> poly F, (forall c, wf 0 (4 * n) (rp c)) /\
    stage_rx n [] nbits ae (wi_bits w) = Some (rp NrEndoscalar) /\
    stage_rx n [nbits] pts ap (coords (wi_initial w :: wi_inputs w ++ wi_ints w)) = Some (rp NrPoints) /\
    esc_carried n nbits pts (rp NrEndoscalar) (rp NrPoints) w /\
    (forall j, j < 8 -> stage_rx n (rev (firstn j bridge_values)) (nth j bridge_values 0) (nth j bas f0) (nth j bvs []) = Some (rp (nth j bridges NrPreamble))) /\
    nested_passes n k cy rp.
Proof.
  intros Sz Hh Hb.
  assert (Mk : forall id mk, In id (ncid_all k) -> nobj id = mask_obj lg mk -> mk <> None).
  { intros id mk Hid E. destruct (slots_sb id Hid) as (o & Eo & _). rewrite E in Eo. destruct mk; [discriminate|]. discriminate. }
  assert (Z : forall id, nobj id = match id with
    | NEndoscalar => mask_obj lg (stage_mask n [] nbits) | NPoints => mask_obj lg (stage_mask n [nbits] pts)
    | NBridgePreamble => mask_obj lg (stage_mask n [] 26) | NBridgeSPrime => mask_obj lg (stage_mask n [26] 4)
    | NBridgeInnerError => mask_obj lg (stage_mask n [4; 26] 4) | NBridgeOuterError => mask_obj lg (stage_mask n [4; 4; 26] 2)
    | NBridgeAB => mask_obj lg (stage_mask n [2; 4; 4; 26] 4) | NBridgeQuery => mask_obj lg (stage_mask n [4; 2; 4; 4; 26] 4)
    | NBridgeF => mask_obj lg (stage_mask n [4; 4; 2; 4; 4; 26] 2) | NBridgeEval => mask_obj lg (stage_mask n [2; 4; 4; 2; 4; 4; 26] 2)
    | _ => nobj id end).
  { intros id. unfold nested_obj. rewrite Hi, Hk, Hp. destruct id; reflexivity. }
  assert (MB : forall j, j < 8 -> stage_mask n (rev (firstn j bridge_values)) (nth j bridge_values 0) <> None).
  { intros j Hj. destruct j as [|[|[|[|[|[|[|[|j]]]]]]]]; [..|lia].
    - exact (Mk NBridgePreamble _ (mask_in k NBridgePreamble I) (Z _)).
    - exact (Mk NBridgeSPrime _ (mask_in k NBridgeSPrime I) (Z _)).
    - exact (Mk NBridgeInnerError _ (mask_in k NBridgeInnerError I) (Z _)).
    - exact (Mk NBridgeOuterError _ (mask_in k NBridgeOuterError I) (Z _)).
    - exact (Mk NBridgeAB _ (mask_in k NBridgeAB I) (Z _)).
    - exact (Mk NBridgeQuery _ (mask_in k NBridgeQuery I) (Z _)).
    - exact (Mk NBridgeF _ (mask_in k NBridgeF I) (Z _)).
    - exact (Mk NBridgeEval _ (mask_in k NBridgeEval I) (Z _)). }
  assert (Rg : forall s, s < k -> CompileSpec2.registered n (esc_stages nbits pts) (s_esc_step zeta np i k s)).
  { intros s Hs. destruct (step_slot F T lg repr hash to_bytes from_uniform f_of_u64 S32 sb nested Hf inj_sb x0 x1 x2 x3 yc onec hc zeta nbits np i k pts Hi Hk Hp slots_sb cap_sb s Hs) as (bo & ou & S & Ft & _).
    now exists bo, ou. }
  destruct (nested_polys F n nbits np i k pts zeta Hn eq_refl Rg (Mk NEndoscalar _ (mask_in k NEndoscalar I) (Z _)) (Mk NPoints _ (mask_in k NPoints I) (Z _)) MB w ae ap bas bvs Sz Hh Hb)
    as (rp & Wp & C0 & Ee & Ep & Ec & Eb & Ms).
  exists rp. repeat (split; [assumption|]). intros y z. exists (syr F T lg repr nested y). split; [intros j Hj; now apply cy_sb|].
  assert (U : forall pa v al ou q y, stage_rx n pa v al ou = Some q -> unmasked n (stage_mask n pa v) (q : poly F) y).
  { intros pa v al ou q y' E. destruct (C23_masked F n y') as [X _]. destruct (X _ _ _ _ _ E) as (m & s & A & A' & A''). exists m, s. auto. }
  apply (nested_claims F T lg repr hash to_bytes from_uniform f_of_u64 S32 sb nested Hf inj_sb x0 x1 x2 x3 yc onec hc zeta nbits np i k pts Hi Hk Hp slots_sb cap_sb rp Wp C0 Ms).
  - intros y'. eapply U, Ee.
  - intros y'. eapply U, Ep.
  - intros j y' Hj. eapply U, Eb. exact Hj.
Qed.
End Slots.

(** ** a registry of the nested circuits *)
Hypothesis Reg : nested_register_all F k nobj (rb_new F) = Some sb.

(** Soundness: polynomials whose nested claims hold at enough challenges carry, in the
    two stages, bits, an initial point, inputs and interstitials that meet the relations of
    every endoscaling step; each polynomial uses the gates of its own part only. *)
Theorem C56_sound : forall (rp : nrxid -> poly F) ys, (forall c, wf 0 (4 * n) (rp c)) -> nested_accepted n k cy rp ys ->
  exists w, nested_proved zeta n nbits np i k pts rp w.
Proof. intros rp ys. destruct (C37_nested F k nobj sb Ct Reg) as (Lo & Sl & _). exact (sound_sb Lo Sl rp ys). Qed.

(** Completeness: wires that meet the relations of every step, any blinds and any values
    for the bridge stages have polynomials that pass at every challenge. *)
Theorem C56_complete : forall (w : esc_wires F) (ae ap : F) (bas : list F) (bvs : list (list F)),
  wires_sized nbits i k w -> (forall s, s < k -> esc_holds zeta np w s) -> (forall j, j < 8 -> length (nth j bvs []) <= nth j bridge_values 0) ->
  exists rp : nrxid -> poly F, (forall c, wf 0 (4 * n) (rp c)) /\
    stage_rx n [] nbits ae (wi_bits w) = Some (rp NrEndoscalar) /\
    stage_rx n [nbits] pts ap (coords (wi_initial w :: wi_inputs w ++ wi_ints w)) = Some (rp NrPoints) /\
    esc_carried n nbits pts (rp NrEndoscalar) (rp NrPoints) w /\
    (forall j, j < 8 -> stage_rx n (rev (firstn j bridge_values)) (nth j bridge_values 0) (nth j bas f0) (nth j bvs []) = Some (rp (nth j bridges NrPreamble))) /\
    nested_passes n k cy rp.
Proof. destruct (C37_nested F k nobj sb Ct Reg) as (Lo & Sl & _). exact (complete_sb Lo Sl). Qed.

(** ** on a curve *)
Section Curve.
Variables (Fs : Field) (b : F) (lambda : Fs) (E : CurveGroup F Fs b zeta lambda).
Local Notation aff := (cg_aff _ _ _ _ _ E).
Hypothesis two : (f1 + f1 : F)%F <> f0.
Hypothesis lam : (lambda * lambda + lambda + f1)%F = f0.
Hypothesis even : Nat.even nbits = true.
Hypothesis order : forall m, 0 < m < (3 * 2 ^ (nbits / 2)) * (3 * 2 ^ (nbits / 2)) -> fnat m <> (f0 : Fs).
Hypothesis pos : 0 < i.
Let Enp : np = S i.
Proof. unfold inputs_len in Hi. destruct np; [discriminate|]. congruence. Qed.

(** If the carried bits are those of an endoscalar [v] and the carried points are finite
    points of the curve, the interstitials are the partial sums of the Horner rule in
    lift(v), and the last of them is the combination of all points. *)
Theorem C56_combo : forall (rp : nrxid -> poly F) ys v (P0 : E) (ins : list E), (forall c, wf 0 (4 * n) (rp c)) -> nested_accepted n k cy rp ys ->
  exists w, nested_proved zeta n nbits np i k pts rp w /\
    (wi_bits w = map (fun j => fe F (nbit v j)) (seq 0 nbits) -> aff P0 = Some (wi_initial w) -> map aff ins = map Some (wi_inputs w) ->
     let s := lift_native Fs lambda nbits v in
     no_clash s P0 ins 0 i /\
     (forall j, j < k -> nth_error (wi_ints w) j = aff (partial_combo s P0 ins (4 * S j))) /\
     nth_error (wi_ints w) (k - 1) = aff (combo s (P0 :: ins))).
Proof.
  intros rp ys v P0 ins Wp A. destruct (C56_sound rp ys Wp A) as (w & Pw). exists w. split; [exact Pw|]. intros Eb E0 Ei. cbv zeta.
  destruct Pw as ((Lb & Li & Lk) & _ & Hs & _).
  assert (Lin : length ins = i) by (rewrite <- (map_length aff), Ei, map_length; exact Li).
  pose proof Hk as Hk'. rewrite Enp in Hk'.
  assert (St : forall step, step < k -> holds (esc_step F F f1 zeta false (S i) step (ewir F (map (nbit v) (seq 0 nbits))) (pwir (wi_initial w)) (map pwir (wi_inputs w)) (map pwir (wi_ints w))) tt).
  { intros step Hl. destruct (Hs step Hl) as [H _]. unfold esc_holds in H. unfold ewir. rewrite map_map, <- Eb, <- Enp. exact H. }
  split; [|split].
  - apply (proj1 (C29_steps F Fs b zeta lambda E nbits v i k P0 ins _ _ _ two lam even order pos Lin Hk' Lk E0 Ei) St).
  - apply (proj1 (C29_steps F Fs b zeta lambda E nbits v i k P0 ins _ _ _ two lam even order pos Lin Hk' Lk E0 Ei) St).
  - exact (C29_sound F Fs b zeta lambda E nbits v i k P0 ins _ _ _ two lam even order pos Lin Hk' Lk E0 Ei St).
Qed.

(** The witness built for points of the curve passes, unless an addition of the Horner
    rule meets equal or opposite points, or a point is the identity. *)
Theorem C56_honest : forall v (points : list E) pw p0 qs ints (ae ap : F) (bas : list F) (bvs : list (list F)),
  points_new np (lift_native Fs lambda nbits v) points = Some pw ->
  aff (pw_initial pw) = Some p0 -> map aff (pw_inputs pw) = map Some qs -> map aff (pw_interstitials pw) = map Some ints ->
  no_clash (lift_native Fs lambda nbits v) (pw_initial pw) (pw_inputs pw) 0 i ->
  (forall j, j < 8 -> length (nth j bvs []) <= nth j bridge_values 0) ->
  exists rp : nrxid -> poly F, (forall c, wf 0 (4 * n) (rp c)) /\
    stage_rx n [] nbits ae (map (fun j => fe F (nbit v j)) (seq 0 nbits)) = Some (rp NrEndoscalar) /\
    stage_rx n [nbits] pts ap (coords (p0 :: qs ++ ints)) = Some (rp NrPoints) /\
    esc_carried n nbits pts (rp NrEndoscalar) (rp NrPoints) (mk_wires (map (fun j => fe F (nbit v j)) (seq 0 nbits)) p0 qs ints) /\
    (forall j, j < 8 -> stage_rx n (rev (firstn j bridge_values)) (nth j bridge_values 0) (nth j bas f0) (nth j bvs []) = Some (rp (nth j bridges NrPreamble))) /\
    nested_passes n k cy rp.
Proof.
  intros v points pw p0 qs ints ae ap bas bvs Hw A0 AI AT Cl Hb.
  pose proof (C29_witness Fs E np (lift_native Fs lambda nbits v) points) as W. rewrite Hw in W. destruct W as (Lp & Ep & Hk2 & HJ & _).
  rewrite Hk in Hk2. injection Hk2 as Lk. rewrite Enp in Lp. assert (Li : length (pw_inputs pw) = i) by (rewrite Ep in Lp; cbn [length] in Lp; lia).
  assert (Lq : length qs = i) by (rewrite <- Li, <- (map_length aff), AI, map_length; reflexivity).
  assert (Lt : length ints = k) by (rewrite Lk, <- (map_length aff (pw_interstitials pw)), AT, map_length; reflexivity).
  pose proof Hk as Hk'. rewrite Enp in Hk'.
  apply (C56_complete (mk_wires (map (fun j => fe F (nbit v j)) (seq 0 nbits)) p0 qs ints) ae ap bas bvs); [|intros s Hs|exact Hb].
  { repeat split; auto. cbn [wi_bits]. now rewrite map_length, seq_length. }
  unfold esc_holds. cbn [wi_bits wi_initial wi_inputs wi_ints]. rewrite Enp.
  pose proof (proj2 (C29_steps F Fs b zeta lambda E nbits v i k (pw_initial pw) (pw_inputs pw) p0 qs ints two lam even order pos Li Hk' Lt A0 AI)) as X. unfold ewir in X. rewrite map_map in X.
  apply X; [|exact Hs]. split; [exact Cl|]. intros j Hj. rewrite <- (HJ j m0) by lia.
  assert (Y : nth_error (map aff (pw_interstitials pw)) j = nth_error (map Some ints) j) by now rewrite AT.
  rewrite !nth_error_map in Y. destruct (nth_error (pw_interstitials pw) j) as [P|] eqn:EP; [|apply nth_error_None in EP; lia].
  rewrite (nth_error_nth _ _ _ EP). cbn [option_map] in Y. destruct (nth_error ints j) as [q|]; cbn [option_map] in Y; congruence.
Qed.
End Curve.
End C56.
Print Assumptions C56_sound.
Print Assumptions C56_complete.
Print Assumptions C56_combo.
Print Assumptions C56_honest.


(** ** the verifier *)
Section Verifier.
Variables (F Fs : Field) (T : TwoAdic F) (Ts : TwoAdic Fs) (lg : nat).
Variables (repr : F -> N) (reprs : Fs -> N).
Variables (hash : list N -> list N) (to_bytes : F -> list N) (from_uniform : list N -> F) (f_of_u64 : N -> F).
Variables (hash' : list N -> list N) (to_bytes' : Fs -> list N) (from_uniform' : list N -> Fs) (f_of_u64' : N -> Fs).
Variables (x0 x1 x2 x3 yc onec hc : F) (cb : F) (hs M N' : nat) (P : pparams F) (of_u : N -> F) (tag : list N)
  (nbits : nat) (gen : F) (fsqrt : F -> option F) (zeta : F).
Variables (l : list (step F)) (sobj : istep -> option (cobj F)).
Variables (x0' x1' x2' x3' yc' onec' hc' zeta' : Fs) (np i k : nat).
Hypothesis Hi : inputs_len np = Some i.
Hypothesis Hk : num_steps np = Some k.
Variable code : place -> circuit F.
Variables (native : registry F) (nested : registry Fs).
Hypothesis B : built F Fs T Ts lg repr reprs hash to_bytes from_uniform f_of_u64 hash' to_bytes' from_uniform' f_of_u64'
  x0 x1 x2 x3 yc onec hc cb hs M N' P of_u tag nbits gen fsqrt zeta l sobj k (nested_obj zeta' x0' x1' x2' x3' yc' onec' hc' lg nbits np) code native nested.
Local Notation n := (2 ^ lg).
Variables (H : FMod F) (heq : H -> H -> bool) (gens : list H).
Hypothesis Hheq : forall a b : H, heq a b = true <-> a = b.
Hypothesis Hgens : 4 * n <= length gens.
Local Notation verify := (verify T Ts lg repr reprs heq gens cb hs k native nested).
Local Notation cy := (fun i y => circuit_y Fs Ts lg reprs nested (N.of_nat i) y).

(** the verifier accepts [p] at 4n values of y', for each of them at 4n values of z',
    whatever the other challenges *)
Definition often_nested (p : proof F Fs H) sfx data (ys : list Fs) : Prop :=
  NoDup ys /\ 4 * n <= length ys /\
  forall y', In y' ys -> exists zs, NoDup zs /\ 4 * n <= length zs /\ forall z', In z' zs -> exists w y z, verify p sfx data w y z y' z' = Some true.

Let Kpos : 0 < k.
Proof. pose proof Hk as E. unfold num_steps in E. destruct (inputs_len np) as [j|]; [|discriminate]. cbv zeta in E. destruct (Nat.ltb_spec 1 ((j + (ENDOSCALINGS_PER_STEP - 1)) / ENDOSCALINGS_PER_STEP)) as [L|L]; assert (X := f_equal (fun o => match o with Some x => x | None => 0 end) E); cbv beta iota in X; rewrite <- X; [apply (Nat.lt_trans _ 1); [auto|exact L]|auto]. Qed.

(** A proof accepted at enough nested challenges carries wires that meet the relations
    of every endoscaling step. *)
Theorem C56_verifier : forall (p : proof F Fs H) sfx data ys, wf_proof n p -> N.to_nat (pf_circuit_id p) < 2 ^ ta_S T -> often_nested p sfx data ys ->
  exists w, nested_proved zeta' n nbits np i k (2 * (1 + i + k)) (nested_poly p) w.
Proof.
  intros p sfx data ys Wp Hc (Nd & Ly & Hv).
  destruct (nested_builder _ _ _ _ _ _ _ _ _ _ _ _ _ _ _ _ _ _ _ _ _ _ _ _ _ _ _ _ _ _ _ _ _ _ _ _ _ _ _ _ B) as (sb & Ef & _ & Lo & Sl & _).
  destruct (bl_two _ _ _ _ _ _ _ _ _ _ _ _ _ _ _ _ _ _ _ _ _ _ _ _ _ _ _ _ _ _ _ _ _ _ _ _ _ _ _ _ B) as [_ S32].
  pose proof (bl_key' _ _ _ _ _ _ _ _ _ _ _ _ _ _ _ _ _ _ _ _ _ _ _ _ _ _ _ _ _ _ _ _ _ _ _ _ _ _ _ _ B) as K.
  pose proof (bl_count _ _ _ _ _ _ _ _ _ _ _ _ _ _ _ _ _ _ _ _ _ _ _ _ _ _ _ _ _ _ _ _ _ _ _ _ _ _ _ _ B) as Ct.
  apply (sound_sb Fs Ts lg reprs hash' to_bytes' from_uniform' f_of_u64' x0' x1' x2' x3' yc' onec' hc' zeta' nbits np i k Hi Hk sb nested S32 Ef Ct K Lo Sl (nested_poly p) ys (proj1 (proj2 Wp))).
  split; [exact Nd|]. split; [exact Ly|]. intros y' Iy. destruct (Hv y' Iy) as (zs & Nz & Lz & Hz). exists zs. split; [exact Nz|]. split; [exact Lz|]. intros z' Iz.
  destruct (Hz z' Iz) as (w & y & z & V).
  destruct (C54_exact F Fs T Ts lg repr reprs hash to_bytes from_uniform f_of_u64 hash' to_bytes' from_uniform' f_of_u64' x0 x1 x2 x3 yc onec hc cb hs M N' P of_u tag nbits gen fsqrt zeta
    l sobj k _ code native nested B Kpos H heq gens Hheq Hgens p sfx data w y z y' z' Wp Hc) as (sy & sy' & m & _ & Sy & _ & X).
  apply X in V. destruct V as (_ & s & d & u & _ & _ & V). exists sy'. split; [exact Sy|]. exact (vf_nested _ _ _ _ _ _ _ _ _ _ _ _ _ _ _ _ _ _ _ V).
Qed.

(** Wires that meet the relations of every step make any proof's nested part honest: the
    hypothesis on nested claims of [C54_complete]. *)
Theorem C56_prover : forall (p0 : proof F Fs H) (w : esc_wires Fs) (ae ap : Fs) (bas : list Fs) (bvs : list (list Fs)), wf_proof n p0 ->
  wires_sized nbits i k w -> (forall s, s < k -> esc_holds zeta' np w s) -> (forall j, j < 8 -> length (nth j bvs []) <= nth j bridge_values 0) ->
  exists rp : nrxid -> poly Fs, let p := with_nested p0 k rp in
    stage_rx n [] nbits ae (wi_bits w) = Some (rp NrEndoscalar) /\
    stage_rx n [nbits] (2 * (1 + i + k)) ap (coords (wi_initial w :: wi_inputs w ++ wi_ints w)) = Some (rp NrPoints) /\
    esc_carried n nbits (2 * (1 + i + k)) (rp NrEndoscalar) (rp NrPoints) w /\
    (forall j, j < 8 -> stage_rx n (rev (firstn j bridge_values)) (nth j bridge_values 0) (nth j bas f0) (nth j bvs []) = Some (rp (nth j bridges NrPreamble))) /\
    wf_proof n p /\ nested_honest n k cy p.
Proof.
  clear Hgens. intros p0 w ae ap bas bvs Wp Sz Hh Hb.
  destruct (nested_builder _ _ _ _ _ _ _ _ _ _ _ _ _ _ _ _ _ _ _ _ _ _ _ _ _ _ _ _ _ _ _ _ _ _ _ _ _ _ _ _ B) as (sb & Ef & _ & Lo & Sl & _).
  destruct (bl_two _ _ _ _ _ _ _ _ _ _ _ _ _ _ _ _ _ _ _ _ _ _ _ _ _ _ _ _ _ _ _ _ _ _ _ _ _ _ _ _ B) as [_ S32].
  pose proof (bl_key' _ _ _ _ _ _ _ _ _ _ _ _ _ _ _ _ _ _ _ _ _ _ _ _ _ _ _ _ _ _ _ _ _ _ _ _ _ _ _ _ B) as K.
  pose proof (bl_count _ _ _ _ _ _ _ _ _ _ _ _ _ _ _ _ _ _ _ _ _ _ _ _ _ _ _ _ _ _ _ _ _ _ _ _ _ _ _ _ B) as Ct.
  destruct (complete_sb Fs Ts lg reprs hash' to_bytes' from_uniform' f_of_u64' x0' x1' x2' x3' yc' onec' hc' zeta' nbits np i k Hi Hk sb nested S32 Ef Ct K Lo Sl w ae ap bas bvs Sz Hh Hb)
    as (rp & Wr & Ee & Ep & Ec & Eb & Pa).
  exists rp. cbv zeta. repeat (split; [assumption|]).
  assert (Est : forall s, s < k -> nth s (map (fun s => rp (NrStep s)) (seq 0 k)) [] = rp (NrStep s)) by (intros s Hs; now rewrite nth_map_seq).
  split.
  - destruct Wp as (W1 & W2 & W3 & W4). split; [exact W1|]. split; [|split; [exact W3|exact W4]].
    intros [s| | | | | | | | | | ]; cbn [nested_poly with_nested pf_step_rxs pf_endoscalar_rx pf_points_rx pf_bridge br_rx]; try apply Wr.
    destruct (Nat.lt_ge_cases s k) as [L|L]; [rewrite Est by exact L; apply Wr|]. rewrite nth_overflow by (rewrite map_length, seq_length; exact L). exact I.
  - split; [cbn [with_nested pf_step_rxs]; now rewrite map_length, seq_length|]. intros y' z' sy Sy. destruct (Pa y' z') as (sy0 & Sy0 & Pa0). assert (Q : forall j, j < k + 11 -> sy0 j = sy j) by (intros j Hj; specialize (Sy0 j Hj); rewrite (Sy j Hj) in Sy0; congruence).
    eapply (nclaim_ext Fs) in Pa0; [|exact S32|exact Ct|exact Lo|exact Q]. clear Pa. rename Pa0 into Pa.
    assert (E1 : nested_own (f1 : Fs) k (nested_poly (with_nested p0 k rp)) = nested_own f1 k rp).
    { unfold nested_own. apply map_ext_in. intros s Hs. apply in_seq in Hs. cbn [nested_poly with_nested pf_step_rxs pf_endoscalar_rx pf_points_rx]. now rewrite Est by lia. }
    assert (E2 : flat_map (fun s => map (fun p => p (NrStep s)) [nested_poly (with_nested p0 k rp)]) (seq 0 k) = flat_map (fun s => map (fun p => p (NrStep s)) [rp]) (seq 0 k)).
    { rewrite !flat_map_concat_map. f_equal. apply map_ext_in. intros s Hs. apply in_seq in Hs. cbn [map nested_poly with_nested pf_step_rxs]. now rewrite Est by lia. }
    rewrite E1. unfold nested_bond in Pa |- *. rewrite E2. exact Pa.
Qed.
End Verifier.
Print Assumptions C56_verifier.
Print Assumptions C56_prover.
