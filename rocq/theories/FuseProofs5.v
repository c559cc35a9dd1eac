(** The prover's step: the traces, and what the finished proof is. *)
From Coq Require Import List Arith NArith Bool Lia Ring Field.
From Verif Require ParProofs.
From Verif Require Import FieldDef ModDef ArithModel ArithSpec ArithProofs FFTModel FFTProofs SparseModel SparseSpec SparseProofs SparseProofs2 CircModel CircSpec SyModel TraceModel CircProofs SatProofs GadgetModel GadgetSpec PointSpec EndoSpec EndoProofs EscModel EscSpec
  FoldModel FoldSpec FoldProofs TxzProofs SpongeModel SpongeSpec ClaimModel StageModel StageSpec StageProofs StageProofs2 RegModel RegSpec RegProofs RegProofs2 PcdModel PcdSpec PcdProofs2 QvModel AppModel AppSpec AppProofs
  RecModel RecSpec CompileModel CompileSpec CompileSpec2 CompileProofs CompileProofs2 RecStageModel RecStageSpec RecStageProofs Props_Stage Props_App Props_Comp Props_Esc Props_Rec Props_Step
  VerifyModel VerifySpec VerifySpec2 VerifyProofs VerifyProofs2 VerifyProofs3 VerifyProofs4 VerifyProofs5 VerifyProofs6 VerifyProofs7 VerifyProofs8 VerifyProofs9 VerifyProofs10 Props_Verify
  NestedModel NestedSpec NestedProofs Props_Nested FuseModel FuseSpec FuseProofs FuseProofs2 FuseProofs3 FuseProofs4.
Import ListNotations.
Local Open Scope nat_scope.

(** ** the honest step relation is a step relation *)
Lemma step_weaken {F : Field} P tagv log2 (cb : F) k M N nbits gen zeta omega l r oe ie q e u :
  (forall v : F, square v \/ square (gen * v)%F) ->
  step_rel true P tagv log2 cb k M N nbits gen zeta omega l r oe ie q e u -> step_rel false P tagv log2 cb k M N nbits gen zeta omega l r oe ie q e u.
Proof.
  intros G [A B C D E T I O V]. constructor; auto.
  destruct V as (V1 & V2 & V3 & V4 & V5 & V6 & V7 & beta & (bs & L & Hb & Eb) & V8).
  repeat (split; [assumption|]). exists beta. split; [|exact V8]. exists bs. split; [exact L|]. split; [|exact Eb].
  intros i Hi. unfold bit_ok. specialize (Hb i Hi). destruct (nth i bs false); [now apply Hb|].
  destruct (G (uv_el u Upre_beta + fnat i)%F) as [Q|Q]; [|exact Q]. apply Hb in Q. discriminate.
Qed.
Lemma stage_facts {F : Field} n parents v alpha (out : list F) q : 0 < n -> stage_rx n parents v alpha out = Some q ->
  wf 0 (4 * n) q /\ coeff_at q 0 = f0 /\ forall y, unmasked n (stage_mask n parents v) q y.
Proof.
  intros Hn E. destruct (C23_stage_polynomial F n parents v alpha out) as [_ X]. destruct (X q E) as (W & _ & _ & _ & _ & Z). split; [exact W|]. split; [apply Z; lia|].
  intros y. destruct (C23_masked F n y) as [Y _]. destruct (Y _ _ _ _ _ E) as (m & s & A & A' & A''). exists m, s. auto.
Qed.

Section Fused.
Variables (F Fs : Field) (T : TwoAdic F) (Ts : TwoAdic Fs) (lg : nat).
Add Field FFu5 : (f_theory F).
Variables (repr : F -> N) (reprs : Fs -> N).
Variables (hash : list N -> list N) (to_bytes : F -> list N) (from_uniform : list N -> F) (f_of_u64 : N -> F).
Variables (hash' : list N -> list N) (to_bytes' : Fs -> list N) (from_uniform' : list N -> Fs) (f_of_u64' : N -> Fs).
Variables (x0 x1 x2 x3 yc onec hc : F) (cb : F) (hs M N' : nat) (P : pparams F) (of_u : N -> F) (tag : list N)
  (nbits : nat) (gen : F) (fsqrt : F -> option F) (zeta : F).
Variables (apps : list (step F)) (sobj : istep -> option (cobj F)).
Variables (x0' x1' x2' x3' yc' onec' hc' zeta' : Fs).
Variable code : place -> circuit F.
Variables (native : registry F) (nested : registry Fs).
Local Notation np := NUM_ENDOSCALING_POINTS.
Hypothesis B : built F Fs T Ts lg repr reprs hash to_bytes from_uniform f_of_u64 hash' to_bytes' from_uniform' f_of_u64'
  x0 x1 x2 x3 yc onec hc cb hs M N' P of_u tag nbits gen fsqrt zeta apps sobj 9 (nested_obj zeta' x0' x1' x2' x3' yc' onec' hc' lg nbits np) code native nested.
Local Notation n := (2 ^ lg).
Local Notation NC := (4 * 2 ^ lg).
Local Notation circuits := (length apps + 15).
Local Notation log2 := (Nat.log2_up (length apps + 15)).
(* the two curves through the coordinates of their points *)
Variables (H : FMod F) (aff : H -> option (Fs * Fs)) (Hs : FMod Fs) (aff' : Hs -> option (F * F)).
Variables (heq : H -> H -> bool) (gens : list H) (gens' : list Hs).
Hypothesis Hheq : forall a b : H, heq a b = true <-> a = b.
Hypothesis Hgens : NC <= length gens.
Hypothesis WP : wf_params P.
Hypotheses (Hhs : 0 < hs) (HM : 0 < M) (H22 : 22 <= M * N').
Hypotheses (SS : forall v s : F, fsqrt v = Some s -> (s * s)%F = v) (SN : forall v : F, fsqrt v = None -> ~ square v) (GO : forall v : F, square v \/ square (gen * v)%F).
Hypothesis Ev : Nat.even nbits = true.
Hypothesis Haff : forall c xy, aff' c = Some xy -> on_curve cb xy.
Local Notation verify := (verify T Ts lg repr reprs heq gens cb hs 9 native nested).
Local Notation core_run := (fuse_core F Fs H Hs aff aff' T lg repr native gens gens' cb hs M N' P of_u tag nbits gen fsqrt zeta).
Local Notation stepped := (stepped T lg native gens cb hs M N' P of_u tag log2 nbits gen zeta).
Local Notation bridged := (bridged lg nbits zeta Hs aff aff' gens').
Local Notation assembled := (assembled T lg cb hs M N' P of_u tag log2 nbits gen zeta fsqrt zeta').
Local Notation finish := (fuse_finish F Fs H lg gens).
Local Notation valid := (valid lg native gens cb hs circuits).
Local Notation sound := (sound T lg repr native circuits).
Let Hn : 0 < n. Proof. pose proof (Nat.pow_nonzero 2 lg); lia. Qed.
Let Hi : inputs_len np = Some 36. Proof. reflexivity. Qed.
Let Hk : num_steps np = Some 9. Proof. reflexivity. Qed.

(** ** the run *)
Lemma run_stepped (l r : fproof F Fs H) ul ur ol or bl R : valid l ul -> valid r ur -> length ol = hs -> length or = hs ->
  core_run l r ol or bl = inr R -> ~ degenerate T l r R ->
  is_base (shown T (fp_proof l) ul ol) (shown T (fp_proof r) ur or) \/ (sound l ul ol /\ sound r ur or) ->
  exists u, stepped bl (shown T (fp_proof l) ul ol) (shown T (fp_proof r) ur or) R u.
Proof.
  intros Vl Vr Lol Lor Run Deg Chi.
  destruct (native_builder _ _ _ _ _ _ _ _ _ _ _ _ _ _ _ _ _ _ _ _ _ _ _ _ _ _ _ _ _ _ _ _ _ _ _ _ _ _ _ _ B) as (nb & Ef & Lg & Lo & Sl & St & Fo).
  destruct (bl_two _ _ _ _ _ _ _ _ _ _ _ _ _ _ _ _ _ _ _ _ _ _ _ _ _ _ _ _ _ _ _ _ _ _ _ _ _ _ _ _ B) as [S32 _].
  pose proof (bl_key _ _ _ _ _ _ _ _ _ _ _ _ _ _ _ _ _ _ _ _ _ _ _ _ _ _ _ _ _ _ _ _ _ _ _ _ _ _ _ _ B) as K.
  destruct (forall_exists2 (obj_is lg) (reg_order nb) Fo) as (ss & Obj). pose proof (ParProofs.Forall2_length Obj) as Ls. rewrite Lo in Ls. symmetry in Ls.
  rewrite <- Ls in *.
  exact (core F Fs H Hs aff aff' T lg repr native gens gens' cb hs M N' P of_u tag nbits gen fsqrt zeta hash to_bytes from_uniform f_of_u64 nb ss S32 Ef Obj K ltac:(lia) WP HM H22 Hgens SS SN GO Ev Haff
    l r ul ur ol or bl Vl Vr Lol Lor R Run Deg Chi).
Qed.

(** ** the finished proof *)
Section Finish.
Variables (bl : blinds F Fs) (cl cr : pvals F) (R : frun F Fs H) (u : uvals F) (l r : fproof F Fs H) (pl : place) (id : N) (s : F) (d : list F).
Variables (app h1 h2 ic oc cv : poly F) (steps : list (poly Fs)).
Hypothesis Sp : stepped bl cl cr R u.
Hypothesis Bd : bridged bl l r R.
Hypothesis Hl : headers_of hs cl.
Hypothesis Hr : headers_of hs cr.
Hypothesis Pl : step_place (length apps) pl.
Hypothesis Pi : place_index (length apps) pl = Some (N.to_nat id).
Hypothesis Ld : length d < hs.
Hypothesis As : assembled R u (code pl) (pv_out cl) (pv_out cr) (AppSpec.padded hs s d) app h1 h2 ic oc cv steps.
Let p := fuse_proof F Fs H R id (pv_out cl) (pv_out cr) app h1 h2 ic oc cv steps.

Lemma stage_wf : (wf 0 NC (fst (fr_pre _ _ _ R)) /\ wf 0 NC (fst (fr_ie _ _ _ R)) /\ wf 0 NC (fst (fr_oe _ _ _ R)) /\ wf 0 NC (fst (fr_query _ _ _ R)) /\ wf 0 NC (fst (fr_eval _ _ _ R))) /\
  (coeff_at (fst (fr_pre _ _ _ R)) 0 = f0 /\ coeff_at (fst (fr_ie _ _ _ R)) 0 = f0 /\ coeff_at (fst (fr_oe _ _ _ R)) 0 = f0 /\ coeff_at (fst (fr_query _ _ _ R)) 0 = f0 /\ coeff_at (fst (fr_eval _ _ _ R)) 0 = f0).
Proof.
  destruct (stage_facts _ _ _ _ _ _ Hn (sp_pre Sp)) as (A1 & A2 & _). destruct (stage_facts _ _ _ _ _ _ Hn (sp_ie Sp)) as (B1 & B2 & _).
  destruct (stage_facts _ _ _ _ _ _ Hn (sp_oe Sp)) as (C1 & C2 & _). destruct (stage_facts _ _ _ _ _ _ Hn (sp_query Sp)) as (D1 & D2 & _).
  destruct (stage_facts _ _ _ _ _ _ Hn (sp_eval Sp)) as (E1 & E2 & _). repeat split; assumption.
Qed.
Lemma bridge_facts f : exists j, j < 8 /\ nth j upts PPreamble = f /\ wf 0 NC (br_rx (fr_bridge _ _ _ R f)) /\ coeff_at (br_rx (fr_bridge _ _ _ R f)) 0 = f0 /\
  forall y, unmasked n (stage_mask n (rev (firstn j bridge_values)) (nth j bridge_values 0)) (br_rx (fr_bridge _ _ _ R f)) y.
Proof.
  assert (X : exists j, j < 8 /\ nth j upts PPreamble = f).
  { destruct f; [exists 0|exists 1|exists 2|exists 3|exists 4|exists 5|exists 6|exists 7]; (split; [lia|reflexivity]). }
  destruct X as (j & Hj & Ej). exists j. split; [exact Hj|]. split; [exact Ej|].
  destruct (bd_bridge _ _ _ _ _ _ _ _ _ _ _ _ _ _ Bd j Hj) as (ps & _ & Es & _). rewrite Ej in Es. exact (stage_facts _ _ _ _ _ _ Hn Es).
Qed.
Lemma finish_wf : wf_proof n p.
Proof.
  destruct stage_wf as [(W1 & W2 & W3 & W4 & W5) _].
  pose proof (sp_commits Sp) as Cm. rewrite Forall_forall in Cm.
  assert (Ca := Cm _ (or_introl eq_refl)). assert (Cb := Cm _ (or_intror (or_introl eq_refl))). assert (Cx := Cm _ (or_intror (or_intror (or_introl eq_refl)))).
  assert (Cp := Cm _ (or_intror (or_intror (or_intror (or_introl eq_refl))))). clear Cm.
  destruct As as [(Wa & _) _ (q1 & M1) (q2 & M2) (q3 & M3) (q4 & M4) (q5 & M5) Ls Hs'].
  split; [|split; [|split; [apply Cx|apply Cp]]].
  - intros [ | |c]; [apply Ca|apply Cb|]. destruct c; cbn [p fuse_proof native_rx pf_application pf_hashes_1 pf_hashes_2 pf_inner_collapse pf_outer_collapse pf_compute_v pf_preamble pf_inner_error pf_outer_error pf_query pf_eval];
      first [assumption|apply M1|apply M2|apply M3|apply M4|apply M5].
  - intros [t| | | | | | | | | | ]; cbn [p fuse_proof nested_poly pf_step_rxs pf_endoscalar_rx pf_points_rx pf_bridge].
    + destruct (Nat.lt_ge_cases t 9) as [L|L]; [destruct (Hs' t L) as (q & W & _); exact W|]. rewrite nth_overflow by (rewrite Ls; exact L). exact I.
    + exact (proj1 (stage_facts _ _ _ _ _ _ Hn (bd_esc _ _ _ _ _ _ _ _ _ _ _ _ _ _ Bd))).
    + destruct (bd_pts _ _ _ _ _ _ _ _ _ _ _ _ _ _ Bd) as (p0 & qs & ints & _ & _ & _ & Ept). exact (proj1 (stage_facts _ _ _ _ _ _ Hn Ept)).
    + destruct (bridge_facts PPreamble) as (j & _ & _ & W & _). exact W.
    + destruct (bridge_facts PSPrime) as (j & _ & _ & W & _). exact W.
    + destruct (bridge_facts PInnerError) as (j & _ & _ & W & _). exact W.
    + destruct (bridge_facts POuterError) as (j & _ & _ & W & _). exact W.
    + destruct (bridge_facts PAB) as (j & _ & _ & W & _). exact W.
    + destruct (bridge_facts PQuery) as (j & _ & _ & W & _). exact W.
    + destruct (bridge_facts PF) as (j & _ & _ & W & _). exact W.
    + destruct (bridge_facts PEval) as (j & _ & _ & W & _). exact W.
Qed.
Lemma finish_zero i : coeff_at (native_rx p (Rx i)) 0 = f0.
Proof.
  destruct stage_wf as [_ (W1 & W2 & W3 & W4 & W5)]. destruct As as [(_ & Za) _ (q1 & M1) (q2 & M2) (q3 & M3) (q4 & M4) (q5 & M5) _ _].
  destruct i; cbn [p fuse_proof native_rx pf_application pf_hashes_1 pf_hashes_2 pf_inner_collapse pf_outer_collapse pf_compute_v pf_preamble pf_inner_error pf_outer_error pf_query pf_eval];
      first [assumption|apply M1|apply M2|apply M3|apply M4|apply M5].
Qed.
Lemma finish_valid : exists c, finish R id (pv_out cl) (pv_out cr) app h1 h2 ic oc cv steps = Some c /\ fp_proof c = p /\ valid c u.
Proof.
  pose proof finish_wf as Wf. unfold fuse_finish.
  assert (Cm : forall q, wf 0 NC q -> exists c, p_commit NC gens q = Some c) by (intros q W; rewrite (commit_ok F) by assumption; eauto).
  destruct (Cm _ (proj1 Wf (Rx RxApplication))) as (c0 & E0). destruct (Cm _ (proj1 Wf (Rx RxHashes1))) as (c1 & E1). destruct (Cm _ (proj1 Wf (Rx RxHashes2))) as (c2 & E2).
  destruct (Cm _ (proj1 Wf (Rx RxInnerCollapse))) as (c3 & E3). destruct (Cm _ (proj1 Wf (Rx RxOuterCollapse))) as (c4 & E4). destruct (Cm _ (proj1 Wf (Rx RxComputeV))) as (c5 & E5).
  cbn [p fuse_proof native_rx pf_application pf_hashes_1 pf_hashes_2 pf_inner_collapse pf_outer_collapse pf_compute_v] in E0, E1, E2, E3, E4, E5.
  change (rk_nc lg) with NC. cbn [opt_all]. rewrite E0, E1, E2, E3, E4, E5. cbn [option_map obind]. eexists. split; [reflexivity|]. split; [reflexivity|].
  pose proof (sp_commits Sp) as Cs. rewrite Forall_forall in Cs.
  assert (Ca := Cs _ (or_introl eq_refl)). assert (Cb := Cs _ (or_intror (or_introl eq_refl))). assert (Cx := Cs _ (or_intror (or_intror (or_introl eq_refl)))).
  assert (Cp := Cs _ (or_intror (or_intror (or_intror (or_introl eq_refl))))). clear Cs.
  pose proof (sp_stage_commits Sp) as St. rewrite Forall_forall in St.
  assert (S0 := St _ (or_introl eq_refl)). assert (S1 := St _ (or_intror (or_introl eq_refl))). assert (S2 := St _ (or_intror (or_intror (or_introl eq_refl)))).
  assert (S3 := St _ (or_intror (or_intror (or_intror (or_introl eq_refl))))). assert (S4 := St _ (or_intror (or_intror (or_intror (or_intror (or_introl eq_refl)))))). clear St.
  constructor; cbn [fp_proof fp_cm fp_xy_cm nth].
  - exact Wf.
  - cbn [fuse_proof pf_circuit_id]. apply (place_range F lg apps 9 (Nat.lt_0_succ 8) H gens Hgens pl _ Pl Pi).
  - apply Hl.
  - apply Hr.
  - exact (sp_instance Sp).
  - intros f. destruct (bridge_facts f) as (j & Hj & Ej & _). destruct (bd_bridge _ _ _ _ _ _ _ _ _ _ _ _ _ _ Bd j Hj) as (ps & _ & _ & c & _ & Ec). rewrite Ej in Ec.
    destruct (sp_instance Sp) as (Ip & _). rewrite (Ip f) in Ec. exact (Haff c _ (eq_sym Ec)).
  - intros [ | |c]; [apply Ca|apply Cb|]. destruct c; cbn [fuse_proof native_rx pf_application pf_hashes_1 pf_hashes_2 pf_inner_collapse pf_outer_collapse pf_compute_v pf_preamble pf_inner_error pf_outer_error pf_query pf_eval]; assumption.
  - apply Cx.
  - apply Cp.
  - cbn [fuse_proof pf_p pf_chal pf_v]. rewrite SparseProofs.eval_ok by apply Cp. exact (sp_v Sp).
  - exact (sp_registry Sp).
Qed.
Lemma finish_stages : stage_passes n [pre_wires hs] 0 (pf_preamble p) /\ stage_passes n [pre_wires hs; oe_wires N' (pp_T P)] 1 (pf_outer_error p) /\
  stage_passes n [pre_wires hs; oe_wires N' (pp_T P); ie_wires M N'] 2 (pf_inner_error p) /\
  stage_passes n [pre_wires hs; query_wires] 1 (pf_query p) /\ stage_passes n [pre_wires hs; query_wires; eval_wires] 2 (pf_eval p).
Proof.
  destruct (stage_facts _ _ _ _ _ _ Hn (sp_pre Sp)) as (A1 & _ & A2). destruct (stage_facts _ _ _ _ _ _ Hn (sp_ie Sp)) as (B1 & _ & B2).
  destruct (stage_facts _ _ _ _ _ _ Hn (sp_oe Sp)) as (C1 & _ & C2). destruct (stage_facts _ _ _ _ _ _ Hn (sp_query Sp)) as (D1 & _ & D2).
  destruct (stage_facts _ _ _ _ _ _ Hn (sp_eval Sp)) as (E1 & _ & E2). repeat split; assumption.
Qed.
Lemma finish_claims y z : Forall (claim_holds n z (syr F T lg repr native y)) (own_claims (view_of p (child_k (shown T p u (AppSpec.padded hs s d)) y))) /\
  (forall cid i, In i (bonded cid) ->
     fsum NC (fun k => fmul (coeff_at (native_rx p (Rx i)) k) (coeff_at (syr F T lg repr native y (internal_index cid)) (NC - 1 - k))) = f0).
Proof.
  destruct (native_builder _ _ _ _ _ _ _ _ _ _ _ _ _ _ _ _ _ _ _ _ _ _ _ _ _ _ _ _ _ _ _ _ _ _ _ _ _ _ _ _ B) as (nb & Ef & Lg & Lo & Sl & St & Fo).
  destruct (bl_two _ _ _ _ _ _ _ _ _ _ _ _ _ _ _ _ _ _ _ _ _ _ _ _ _ _ _ _ _ _ _ _ _ _ _ _ _ _ _ _ B) as [S32 _].
  pose proof (bl_key _ _ _ _ _ _ _ _ _ _ _ _ _ _ _ _ _ _ _ _ _ _ _ _ _ _ _ _ _ _ _ _ _ _ _ _ _ _ _ _ B) as K. rewrite <- Lg in K.
  pose proof (place_range F lg apps 9 (Nat.lt_0_succ 8) H gens Hgens pl _ Pl Pi) as Ri.
  destruct (St _ Ri) as (pl' & Pl' & Pi' & Eo').
  assert (pl' = pl) as -> by (apply (place_inj F lg apps 9 (Nat.lt_0_succ 8) H gens Hgens pl' pl _ Pl' Pl Pi' Pi)).
  destruct (bl_step _ _ _ _ _ _ _ _ _ _ _ _ _ _ _ _ _ _ _ _ _ _ _ _ _ _ _ _ _ _ _ _ _ _ _ _ _ _ _ _ B pl Pl) as (G & outs & Eo & Lou & Ep).
  destruct finish_stages as (P1 & P2 & P3 & P4 & P5).
  destruct As as [_ (outs' & Eo1 & App) (q1 & M1) (q2 & M2) (q3 & M3) (q4 & M4) (q5 & M5) _ _]. rewrite Eo in Eo1. injection Eo1 as <-.
  destruct (nth_error (reg_order nb) (N.to_nat id)) as [o|] eqn:En; [|apply nth_error_None in En; lia].
  destruct (circuit_owned (code pl) outs G Eo) as [Ow _].
  split.
  - pose proof (native_complete F T lg repr hash to_bytes from_uniform f_of_u64 S32 nb native Ef K x0 x1 x2 x3 yc onec hc cb hs M N' P of_u tag nbits gen fsqrt zeta log2 Sl
      Fs H p (proj1 finish_wf) finish_zero u (AppSpec.padded hs s d) o (cbody (code pl)) outs En ltac:(congruence) Ow App (sp_c Sp) P1 P2 P3 P4 P5 q1 q2 q3 q4 q5 M1 M2 M3 M4 M5 y z) as X.
    cbv zeta in X. apply Forall_app in X. apply X.
  - assert (Z : forall cid mk i, In i (bonded cid) ->
      native_obj T x0 x1 x2 x3 yc onec hc lg cb hs M N' P of_u tag nbits gen fsqrt zeta log2 cid = mask_obj lg mk -> (forall m, mk = Some m -> 1 <= fst m /\ fst m + snd m <= n) ->
      unmasked n mk (native_rx p (Rx i)) y ->
      fsum NC (fun k => fmul (coeff_at (native_rx p (Rx i)) k) (coeff_at (syr F T lg repr native y (internal_index cid)) (NC - 1 - k))) = f0).
    { intros cid mk i _ Em Bm Hu.
      destruct (bond_slot F T lg repr hash to_bytes from_uniform f_of_u64 S32 nb native Ef K x0 x1 x2 x3 yc onec hc cb hs M N' P of_u tag nbits gen fsqrt zeta log2 Sl cid mk Em Bm)
        as (m & -> & _ & _ & Hy). destruct (Hy y) as (q & Eq & Wq & _ & _ & Km).
      apply (mask_complete F n (rg_key F native) m (native_rx p (Rx i)) q (syr F T lg repr native y (internal_index cid)) y Hn (proj1 finish_wf _) Wq Eq Km); [|exact Hu].
      rewrite finish_zero. ring. }
    assert (SM : forall pa v m, stage_mask n pa v = Some m -> (1 <= fst m /\ fst m + snd m <= n)%nat) by (intros pa v m; apply mask_new_inv).
    assert (SF : forall pa v m, stage_final_mask n pa v = Some m -> (1 <= fst m /\ fst m + snd m <= n)%nat) by (intros pa v m; apply mask_final_inv).
    pose proof M1 as (_ & _ & _ & _ & F1 & _). pose proof M2 as (_ & _ & _ & _ & F2 & _). pose proof M3 as (_ & _ & _ & _ & F3 & _).
    pose proof M4 as (_ & _ & _ & _ & F4 & _). pose proof M5 as (_ & _ & _ & _ & F5 & _).
    intros cid i Hi'. destruct cid; cbn [bonded] in Hi'; try contradiction.
    all: repeat (destruct Hi' as [<-|Hi']); try contradiction.
    all: first
      [ exact (Z PreambleStage _ RxPreamble (or_introl eq_refl) eq_refl (SM _ _) (proj2 P1 y))
      | exact (Z InnerErrorStage _ RxInnerError (or_introl eq_refl) eq_refl (SM _ _) (proj2 P3 y))
      | exact (Z OuterErrorStage _ RxOuterError (or_introl eq_refl) eq_refl (SM _ _) (proj2 P2 y))
      | exact (Z QueryStage _ RxQuery (or_introl eq_refl) eq_refl (SM _ _) (proj2 P4 y))
      | exact (Z EvalStage _ RxEval (or_introl eq_refl) eq_refl (SM _ _) (proj2 P5 y))
      | exact (Z InnerErrorFinalStaged _ RxInnerCollapse (or_introl eq_refl) eq_refl (SF _ _) (F3 y))
      | exact (Z OuterErrorFinalStaged _ RxHashes1 (or_introl eq_refl) eq_refl (SF _ _) (F1 y))
      | exact (Z OuterErrorFinalStaged _ RxHashes2 (or_intror (or_introl eq_refl)) eq_refl (SF _ _) (F2 y))
      | exact (Z OuterErrorFinalStaged _ RxOuterCollapse (or_intror (or_intror (or_introl eq_refl))) eq_refl (SF _ _) (F4 y))
      | exact (Z EvalFinalStaged _ RxComputeV (or_introl eq_refl) eq_refl (SF _ _) (F5 y)) ].
Qed.
Lemma finish_sound : forall c, fp_proof c = p -> sound c u (AppSpec.padded hs s d).
Proof.
  intros c Ec y sy Sy. rewrite Ec.
  pose proof (place_range F lg apps 9 (Nat.lt_0_succ 8) H gens Hgens pl _ Pl Pi) as Ri.
  assert (Q : forall i, i < circuits -> sy i = syr F T lg repr native y i) by (intros i Hi'; unfold syr; now rewrite (Sy i Hi')).
  assert (Qi : forall cid, sy (internal_index cid) = syr F T lg repr native y (internal_index cid)) by (intros cid; apply Q; destruct cid; cbn; lia).
  split.
  - intros z. destruct (finish_claims y z) as [X _]. revert X. unfold own_claims.
    intros X. repeat match type of X with Forall _ (_ :: _) => inversion X; subst; clear X; match goal with h : Forall _ _ |- _ => rename h into X end end.
    repeat apply Forall_cons; [..|apply Forall_nil]; unfold claim_holds, b_coeff in *; cbn [fst snd view_of pv_app p fuse_proof pf_circuit_id] in *; rewrite ?Qi, ?(Q (N.to_nat id)) by lia; assumption.
  - intros cid i Hi'. rewrite Qi. now apply (proj2 (finish_claims y f0)).
Qed.
Lemma finish_nested : nested_honest n 9 (fun i y => circuit_y Fs Ts lg reprs nested (N.of_nat i) y) p.
Proof.
  destruct (nested_builder _ _ _ _ _ _ _ _ _ _ _ _ _ _ _ _ _ _ _ _ _ _ _ _ _ _ _ _ _ _ _ _ _ _ _ _ _ _ _ _ B) as (sb & Ef' & _ & Lo' & Sl' & _).
  destruct (bl_two _ _ _ _ _ _ _ _ _ _ _ _ _ _ _ _ _ _ _ _ _ _ _ _ _ _ _ _ _ _ _ _ _ _ _ _ _ _ _ _ B) as [_ S32'].
  pose proof (bl_key' _ _ _ _ _ _ _ _ _ _ _ _ _ _ _ _ _ _ _ _ _ _ _ _ _ _ _ _ _ _ _ _ _ _ _ _ _ _ _ _ B) as K'.
  pose proof (bl_count _ _ _ _ _ _ _ _ _ _ _ _ _ _ _ _ _ _ _ _ _ _ _ _ _ _ _ _ _ _ _ _ _ _ _ _ _ _ _ _ B) as Ct.
  assert (Inj' : forall w w' : Fs, fpow w (2 ^ log2_circuits Fs sb) = f1 -> fpow w' (2 ^ log2_circuits Fs sb) = f1 -> omega_key Fs reprs w = omega_key Fs reprs w' -> w = w')
    by (rewrite (lg_sb Fs 9 sb Lo'); exact K').
  assert (Sl2 := slots_sb Fs lg x0' x1' x2' x3' yc' onec' hc' zeta' nbits np 9 sb Ct Sl').
  assert (Cap := cap_sb Fs Ts lg reprs hash' to_bytes' from_uniform' f_of_u64' 9 sb nested Ef' Lo').
  split; [cbn [p fuse_proof pf_step_rxs]; rewrite (as_len _ _ _ _ _ _ _ _ _ _ _ _ _ _ _ _ _ _ _ _ _ _ _ _ _ _ _ _ _ _ _ As); apply le_n|].
  intros y z sy Sy.
  apply (nclaim_ext Fs) with (sy := syr Fs Ts lg reprs nested y) (lg := lg) (sb := sb) (T := Ts); auto.
  { intros j Hj. unfold syr. now rewrite (Sy j Hj). }
  destruct (stage_facts _ _ _ _ _ _ Hn (bd_esc _ _ _ _ _ _ _ _ _ _ _ _ _ _ Bd)) as (We & Ze & Ue).
  destruct (bd_pts _ _ _ _ _ _ _ _ _ _ _ _ _ _ Bd) as (p0 & qs & ints & _ & _ & _ & Ept). destruct (stage_facts _ _ _ _ _ _ Hn Ept) as (Wpt & Zp & Up).
  apply (nested_claims Fs Ts lg reprs hash' to_bytes' from_uniform' f_of_u64' S32' sb nested Ef' Inj' x0' x1' x2' x3' yc' onec' hc' zeta' nbits np 36 9 points_values Hi Hk eq_refl Sl2 Cap (nested_poly p)).
  - exact (proj1 (proj2 finish_wf)).
  - destruct As as [_ _ _ _ _ _ _ Ls Hs'].
    intros [t| | | | | | | | | | ]; cbn [p fuse_proof nested_poly pf_step_rxs pf_endoscalar_rx pf_points_rx pf_bridge]; try assumption.
    + destruct (Nat.lt_ge_cases t 9) as [L|L]; [destruct (Hs' t L) as (q & _ & Z & _); exact Z|]. rewrite nth_overflow by (rewrite Ls; exact L). reflexivity.
    + destruct (bridge_facts PPreamble) as (j & _ & _ & _ & Z & _). exact Z.
    + destruct (bridge_facts PSPrime) as (j & _ & _ & _ & Z & _). exact Z.
    + destruct (bridge_facts PInnerError) as (j & _ & _ & _ & Z & _). exact Z.
    + destruct (bridge_facts POuterError) as (j & _ & _ & _ & Z & _). exact Z.
    + destruct (bridge_facts PAB) as (j & _ & _ & _ & Z & _). exact Z.
    + destruct (bridge_facts PQuery) as (j & _ & _ & _ & Z & _). exact Z.
    + destruct (bridge_facts PF) as (j & _ & _ & _ & Z & _). exact Z.
    + destruct (bridge_facts PEval) as (j & _ & _ & _ & Z & _). exact Z.
  - exact (as_steps _ _ _ _ _ _ _ _ _ _ _ _ _ _ _ _ _ _ _ _ _ _ _ _ _ _ _ _ _ _ _ As).
  - exact Ue.
  - exact Up.
  - intros j y' Hj.
    destruct (bd_bridge _ _ _ _ _ _ _ _ _ _ _ _ _ _ Bd j Hj) as (ps & _ & Es & _). destruct (stage_facts _ _ _ _ _ _ Hn Es) as (_ & _ & U).
    destruct j as [|[|[|[|[|[|[|[|j]]]]]]]]; [..|lia]; exact (U y').
Qed.
Lemma finish_accepted w y z y' z' : verify p (Some s) (Some d) w y z y' z' = Some true.
Proof.
  destruct (native_builder _ _ _ _ _ _ _ _ _ _ _ _ _ _ _ _ _ _ _ _ _ _ _ _ _ _ _ _ _ _ _ _ _ _ _ _ _ _ _ _ B) as (nb & Ef & Lg & Lo & Sl & St & Fo).
  pose proof (place_range F lg apps 9 (Nat.lt_0_succ 8) H gens Hgens pl _ Pl Pi) as Ri.
  destruct (finalize_inv F T repr lg hash to_bytes from_uniform f_of_u64 nb native Ef) as (_ & dd & Ed & _). rewrite Lg in Ed.
  assert (Hc : N.to_nat id < 2 ^ ta_S T).
  { eapply Nat.lt_le_trans; [apply Ri|]. eapply Nat.le_trans; [apply Nat.log2_up_spec; lia|]. apply Nat.pow_le_mono_r; [lia|].
    unfold domain_new in Ed. destruct (Nat.leb_spec log2 (ta_S T)); [assumption|discriminate]. }
  destruct finish_stages as (P1 & P2 & P3 & P4 & P5). pose proof finish_nested as Ne. pose proof finish_zero as C0. pose proof finish_wf as Wf.
  pose proof (sp_commits Sp) as Cs. rewrite Forall_forall in Cs. assert (Cp := Cs _ (or_intror (or_intror (or_intror (or_introl eq_refl))))). clear Cs.
  destruct As as [_ (outs & Eo & App) (q1 & M1) (q2 & M2) (q3 & M3) (q4 & M4) (q5 & M5) _ _].
  apply (accepts_traces F Fs T Ts lg repr reprs hash to_bytes from_uniform f_of_u64 hash' to_bytes' from_uniform' f_of_u64' x0 x1 x2 x3 yc onec hc cb hs M N' P of_u tag nbits gen fsqrt zeta
    apps sobj 9 _ code native nested B (Nat.lt_0_succ 8) H heq gens Hheq Hgens p s d u pl outs q1 q2 q3 q4 q5); auto; try apply Hl; try apply Hr.
  - exact (sp_instance Sp).
  - split; [exact (sp_c Sp)|]. split; [exact (sp_v Sp)|]. split; [|exists (fst (eo_xy (fr_ps _ _ _ R))); split; [exact (sp_registry Sp)|reflexivity]].
    destruct Cp as [Wq Ec]. rewrite (commit_ok F) in Ec by assumption. cbn [p fuse_proof pf_p pf_p_commitment]. congruence.
Qed.
End Finish.

(** ** the trivial proof *)
Lemma ones_ok (K : Field) q : @ones lg K = Some q -> wf 0 NC q.
Proof.
  unfold ones. change (rk_nc lg) with NC. change (rk_n lg) with n. intros Eq.
  destruct (trace_build_ok K n [f1] [f1] [f1] [f1]) as (q' & Eq' & W & _); try (cbn [length]; lia). congruence.
Qed.
Lemma trivial_valid c : trivial_proof F Fs H Hs aff' lg native gens gens' hs 9 = Some c -> (forall f, br_commitment (pf_bridge (fp_proof c) f) <> None) -> exists u, valid c u.
Proof.
  destruct (slots_ok F Fs T Ts lg repr reprs hash to_bytes from_uniform f_of_u64 hash' to_bytes' from_uniform' f_of_u64' x0 x1 x2 x3 yc onec hc cb hs M N' P of_u tag nbits gen fsqrt zeta
    apps sobj 9 _ code native nested B) as (_ & _ & Sx). destruct (Sx f1 f1) as (xy & Exy & Wxy & _).
  unfold trivial_proof. change (rk_nc lg) with NC. destruct (@ones lg F) as [o|] eqn:Eo; [|discriminate]. cbn [obind].
  destruct (p_commit NC gens o) as [cm|] eqn:Ecm; [|discriminate]. cbn [obind]. destruct (@ones lg Fs) as [os|] eqn:Eos; [|discriminate]. cbn [obind].
  destruct (p_commit NC gens' os) as [cms|] eqn:Ecms; [|discriminate]. cbn [obind]. rewrite Exy. cbn [obind].
  destruct (p_commit NC gens xy) as [xycm|] eqn:Excm; [|discriminate]. cbn [obind]. intros Ec Fin. assert (Ec' := f_equal (fun o => match o with Some x => x | None => c end) Ec). cbv beta iota in Ec'. clear Ec. subst c.
  cbn [fp_proof pf_bridge br_commitment] in Fin. destruct (aff' cms) as [xyp|] eqn:Ea; [|now elim (Fin PPreamble)]. clear Fin.
  apply ones_ok in Eo, Eos.
  exists (mk_uvals (fun _ => xyp) (fun e => match e with Uc => p_revdot NC o o | Uv => p_eval NC o f1 | _ => f1 end)).
  constructor; cbn [fp_proof fp_cm fp_xy_cm pf_circuit_id pf_left_header pf_right_header pf_registry_xy pf_p pf_p_commitment pf_chal pf_v].
  - split; [|split; [|split; [exact Wxy|exact Eo]]].
    + intros [ | |i]; [exact Eo|exact Eo|]. destruct i; exact Eo.
    + intros [t| | | | | | | | | | ]; try exact Eos. cbn [nested_poly pf_step_rxs].
      destruct (Nat.lt_ge_cases t 9) as [L|L]; [|rewrite nth_overflow by (rewrite repeat_length; exact L); exact I].
      rewrite (nth_indep _ [] os) by (rewrite repeat_length; exact L). rewrite nth_repeat. exact Eos.
  - cbn [N.to_nat]. lia.
  - apply repeat_length.
  - apply repeat_length.
  - split; [intros f; reflexivity|]. repeat split.
  - intros f. exact (Haff cms xyp Ea).
  - intros [ | |i]; [exact Ecm|exact Ecm|]. destruct i; exact Ecm.
  - exact Excm.
  - exact Ecm.
  - reflexivity.
  - exact Exy.
Qed.

(** ** one instance, whatever its representation *)
Lemma instance_unique (R : frun F Fs H) u u' : instance_of R u -> instance_of R u' -> u_write u = u_write u'.
Proof.
  intros (A & A1 & A2 & A3 & A4 & A5 & A6 & A7 & A8 & A9 & A10 & A11 & A12 & A13) (B' & B1 & B2 & B3 & B4 & B5 & B6 & B7 & B8 & B9 & B10 & B11 & B12 & B13).
  assert (Q : forall f, uv_pt u f = uv_pt u' f) by (intros f; specialize (A f); rewrite (B' f) in A; congruence).
  unfold u_write. cbn [map]. rewrite !Q, A1, A2, A3, A4, A5, A6, A7, A8, A9, A10, A11, A12, A13, B1, B2, B3, B4, B5, B6, B7, B8, B9, B10, B11, B12, B13. reflexivity.
Qed.
Lemma assembled_unique (R : frun F Fs H) u u' c ol or out app h1 h2 ic oc cv steps : instance_of R u -> instance_of R u' ->
  assembled R u c ol or out app h1 h2 ic oc cv steps -> assembled R u' c ol or out app h1 h2 ic oc cv steps.
Proof. intros I1 I2 [A1 A2 A3 A4 A5 A6 A7 A8 A9]. rewrite (instance_unique R u u' I1 I2) in A3, A4, A5, A6, A7. constructor; assumption. Qed.
End Fused.

Section TracesAny.
Variables (F Fs : Field) (T : TwoAdic F) (Ts : TwoAdic Fs) (lg : nat).
Add Field FFu11 : (f_theory F).
Variables (repr : F -> N) (reprs : Fs -> N).
Variables (hash : list N -> list N) (to_bytes : F -> list N) (from_uniform : list N -> F) (f_of_u64 : N -> F).
Variables (hash' : list N -> list N) (to_bytes' : Fs -> list N) (from_uniform' : list N -> Fs) (f_of_u64' : N -> Fs).
Variables (x0 x1 x2 x3 yc onec hc : F) (cb : F) (hs M N' : nat) (P : pparams F) (of_u : N -> F) (tag : list N)
  (nbits : nat) (gen : F) (fsqrt : F -> option F) (zeta : F).
Variables (apps : list (step F)) (sobj : istep -> option (cobj F)).
Variables (x0' x1' x2' x3' yc' onec' hc' zeta' : Fs).
Variable code : place -> circuit F.
Variables (native : registry F) (nested : registry Fs).
Local Notation np := NUM_ENDOSCALING_POINTS.
Hypothesis B : built F Fs T Ts lg repr reprs hash to_bytes from_uniform f_of_u64 hash' to_bytes' from_uniform' f_of_u64'
  x0 x1 x2 x3 yc onec hc cb hs M N' P of_u tag nbits gen fsqrt zeta apps sobj 9 (nested_obj zeta' x0' x1' x2' x3' yc' onec' hc' lg nbits np) code native nested.
Local Notation n := (2 ^ lg).
Local Notation NC := (4 * 2 ^ lg).
Local Notation circuits := (length apps + 15).
Local Notation log2 := (Nat.log2_up (length apps + 15)).
(* the two curves through the coordinates of their points *)
Variables (H : FMod F) (aff : H -> option (Fs * Fs)) (Hs : FMod Fs) (aff' : Hs -> option (F * F)).
Variables (heq : H -> H -> bool) (gens : list H) (gens' : list Hs).
Hypothesis Hheq : forall a b : H, heq a b = true <-> a = b.
Hypothesis Hgens : NC <= length gens.
Hypothesis WP : wf_params P.
Hypotheses (Hhs : 0 < hs) (HM : 0 < M) (H22 : 22 <= M * N').
Hypotheses (SS : forall v s : F, fsqrt v = Some s -> (s * s)%F = v) (SN : forall v : F, fsqrt v = None -> ~ square v) (GO : forall v : F, square v \/ square (gen * v)%F).
Hypothesis Ev : Nat.even nbits = true.
Hypothesis Haff : forall c xy, aff' c = Some xy -> on_curve cb xy.
Local Notation verify := (verify T Ts lg repr reprs heq gens cb hs 9 native nested).
Local Notation core_run := (fuse_core F Fs H Hs aff aff' T lg repr native gens gens' cb hs M N' P of_u tag nbits gen fsqrt zeta).
Local Notation stepped := (stepped T lg native gens cb hs M N' P of_u tag log2 nbits gen zeta).
Local Notation bridged := (bridged lg nbits zeta Hs aff aff' gens').
Local Notation assembled := (assembled T lg cb hs M N' P of_u tag log2 nbits gen zeta fsqrt zeta').
Local Notation finish := (fuse_finish F Fs H lg gens).
Local Notation valid := (valid lg native gens cb hs circuits).
Local Notation sound := (sound T lg repr native circuits).
Let Hn : 0 < n. Proof. pose proof (Nat.pow_nonzero 2 lg); lia. Qed.
Let Hi : inputs_len np = Some 36. Proof. reflexivity. Qed.
Let Hk : num_steps np = Some 9. Proof. reflexivity. Qed.

(** ** the traces, from the step circuits' relations *)
Lemma traces_with bl cl cr R u pl pi res (alpha s : F) d (l r : fproof F Fs H) :
  stepped bl cl cr R u -> headers_of hs cl -> headers_of hs cr -> step_place (length apps) pl -> place_index (length apps) pl = Some pi ->
  holds (code pl F f1) res -> map (ew F F) res = pv_out cl ++ pv_out cr ++ AppSpec.padded hs s d ->
  bridged bl l r R ->
  (forall p0 qs ints, aff (pw_initial (fr_points _ _ _ R)) = Some p0 -> map aff (pw_inputs (fr_points _ _ _ R)) = map Some qs -> map aff (pw_interstitials (fr_points _ _ _ R)) = map Some ints ->
     length qs = 36 -> length ints = 9 -> forall s, s < 9 -> esc_holds zeta' np (mk_wires (map (fun j => fe Fs (nbit (fr_endo _ _ _ R) j)) (seq 0 nbits)) p0 qs ints) s) ->
  exists app h1 h2 ic oc cv steps, assembled R u (code pl) (pv_out cl) (pv_out cr) (AppSpec.padded hs s d) app h1 h2 ic oc cv steps.
Proof.
  intros Sp Hl Hr Pl Pi Ho Er Bd Hst0.
  destruct (native_builder _ _ _ _ _ _ _ _ _ _ _ _ _ _ _ _ _ _ _ _ _ _ _ _ _ _ _ _ _ _ _ _ _ _ _ _ _ _ _ _ B) as (nb & Ef & Lg & Lo & Sl & St & Fo).
  destruct (bl_two _ _ _ _ _ _ _ _ _ _ _ _ _ _ _ _ _ _ _ _ _ _ _ _ _ _ _ _ _ _ _ _ _ _ _ _ _ _ _ _ B) as [S32 S32'].
  pose proof (bl_key _ _ _ _ _ _ _ _ _ _ _ _ _ _ _ _ _ _ _ _ _ _ _ _ _ _ _ _ _ _ _ _ _ _ _ _ _ _ _ _ B) as K. rewrite <- Lg in K.
  destruct (bl_step _ _ _ _ _ _ _ _ _ _ _ _ _ _ _ _ _ _ _ _ _ _ _ _ _ _ _ _ _ _ _ _ _ _ _ _ _ _ _ _ B pl Pl) as (G & outs & Eo & Lou & Ep).
  (* the application *)
  destruct (St _ (place_range F lg apps 9 (Nat.lt_0_succ 8) H gens Hgens pl pi Pl Pi)) as (pl' & Pl' & Pi' & Eo'). assert (pl' = pl) as -> by (apply (place_inj F lg apps 9 (Nat.lt_0_succ 8) H gens Hgens pl' pl _ Pl' Pl Pi' Pi)).
  destruct (nth_error (reg_order nb) pi) as [o|] eqn:En; [|apply nth_error_None in En; pose proof (place_range F lg apps 9 (Nat.lt_0_succ 8) H gens Hgens _ _ Pl Pi); lia].
  destruct (circuit_owned (code pl) outs G Eo) as [Ow _].
  assert (Eo2 : prog_cobj x0 x1 x2 x3 yc onec hc lg (cbody (code pl)) outs = Some o) by congruence.
  destruct (circ_slot F T lg repr hash to_bytes from_uniform f_of_u64 S32 nb native Ef K x0 x1 x2 x3 yc onec hc _ o _ outs En Eo2 Ow) as [Fi _].
  destruct (C51_complete F n (code pl) outs res alpha G Eo Fi Ho) as (ra & Wa & _ & Za & Pa). rewrite Er in Pa.
  (* the recursion step *)
  assert (Rg : forall id stages (c : staged F), generic_staged c ->
    native_obj T x0 x1 x2 x3 yc onec hc lg cb hs M N' P of_u tag nbits gen fsqrt zeta log2 id = multi_obj x0 x1 x2 x3 yc onec hc lg stages c -> CompileSpec2.registered n stages c).
  { intros id stages c Gc Ec.
    destruct (multi_slot F T lg repr hash to_bytes from_uniform f_of_u64 S32 nb native Ef K x0 x1 x2 x3 yc onec hc cb hs M N' P of_u tag nbits gen fsqrt zeta log2 Sl id stages c Gc Ec)
      as (bo & ou & S & Fit & _). now exists bo, ou. }
  destruct (C53_complete F P cb of_u tag log2 hs lg M N' nbits gen fsqrt zeta (internal_omega T) WP n cl cr (fr_outer _ _ _ R) (fr_errors _ _ _ R) (fr_queries _ _ _ R) (fr_evals _ _ _ R) u
    (bl_pre bl) (bl_oe bl) (bl_ie bl) (bl_query bl) (bl_eval bl) Hhs H22 Hl Hr (sp_outer_size Sp) (sp_inner_size Sp) SS SN GO
    (Rg Hashes1Circuit _ _ (s_hashes_1_gen cb hs N' P of_u tag log2) eq_refl) (Rg Hashes2Circuit _ _ (s_hashes_2_gen cb N' P) eq_refl)
    (Rg InnerCollapseCircuit _ _ (s_inner_gen cb hs M N' P) eq_refl) (Rg OuterCollapseCircuit _ _ (s_outer_gen cb hs N' P) eq_refl)
    (Rg ComputeVCircuit _ _ (s_compute_v_gen cb hs M N' lg nbits gen fsqrt zeta (internal_omega T)) eq_refl) (sp_transcript Sp) (step_weaken _ _ _ _ _ _ _ _ _ _ _ _ _ _ _ _ _ _ GO (sp_step Sp)))
    as (rpre & roe & rie & rq & re & _ & X1 & X2 & X3 & X4 & X5 & Y).
  rewrite (sp_pre Sp) in X1. rewrite (sp_oe Sp) in X2. rewrite (sp_ie Sp) in X3. rewrite (sp_query Sp) in X4. rewrite (sp_eval Sp) in X5.
  assert (Q : forall (a b : poly F), Some a = Some b -> a = b) by congruence. apply Q in X1, X2, X3, X4, X5. subst rpre roe rie rq re.
  destruct Y as [_ _ _ _ _ (h1 & M1) (h2 & M2) (ic & M3) (oc & M4) (cv & M5)].
  (* the endoscaling steps *)
  destruct (nested_builder _ _ _ _ _ _ _ _ _ _ _ _ _ _ _ _ _ _ _ _ _ _ _ _ _ _ _ _ _ _ _ _ _ _ _ _ _ _ _ _ B) as (sb & Ef' & _ & Lo' & Sl' & _).
  pose proof (bl_key' _ _ _ _ _ _ _ _ _ _ _ _ _ _ _ _ _ _ _ _ _ _ _ _ _ _ _ _ _ _ _ _ _ _ _ _ _ _ _ _ B) as K'.
  pose proof (bl_count _ _ _ _ _ _ _ _ _ _ _ _ _ _ _ _ _ _ _ _ _ _ _ _ _ _ _ _ _ _ _ _ _ _ _ _ _ _ _ _ B) as Ct.
  destruct (bd_pts _ _ _ _ _ _ _ _ _ _ _ _ _ _ Bd) as (p0 & qs & ints & A0 & AI & AT & Ept).
  pose proof (bd_points _ _ _ _ _ _ _ _ _ _ _ _ _ _ Bd) as Hw. pose proof (bd_esc _ _ _ _ _ _ _ _ _ _ _ _ _ _ Bd) as Eesc.
  set (v := fr_endo _ _ _ R) in *. set (pw := fr_points _ _ _ R) in *.
  pose proof (C29_witness F H np (lift_native F zeta nbits v) (snd (fr_f _ _ _ R) :: map snd (p_order (fr_ps _ _ _ R)))) as W. rewrite Hw in W. destruct W as (Lp & Epw & Hk2 & HJ & _).
  assert (Lk : length (pw_interstitials pw) = 9) by (rewrite Hk in Hk2; congruence).
  assert (Li : length (pw_inputs pw) = 36) by (rewrite Epw in Lp; cbn [length] in Lp; change np with 37 in Lp; lia).
  assert (Lq : length qs = 36) by (rewrite <- Li, <- (map_length aff), AI, map_length; reflexivity).
  assert (Lt : length ints = 9) by (rewrite <- Lk, <- (map_length aff (pw_interstitials pw)), AT, map_length; reflexivity).
  set (w := mk_wires (map (fun j => fe Fs (nbit v j)) (seq 0 nbits)) p0 qs ints).
  assert (Sz : wires_sized nbits 36 9 w) by (repeat split; auto; cbn [w wi_bits]; now rewrite map_length, seq_length).
  assert (Hh : forall s, s < 9 -> esc_holds zeta' np w s) by exact (Hst0 p0 qs ints A0 AI AT Lq Lt).
  assert (Inj' : forall w w' : Fs, fpow w (2 ^ log2_circuits Fs sb) = f1 -> fpow w' (2 ^ log2_circuits Fs sb) = f1 -> omega_key Fs reprs w = omega_key Fs reprs w' -> w = w')
    by (rewrite (lg_sb Fs 9 sb Lo'); exact K').
  assert (Sl2 := slots_sb Fs lg x0' x1' x2' x3' yc' onec' hc' zeta' nbits np 9 sb Ct Sl').
  assert (Cap := cap_sb Fs Ts lg reprs hash' to_bytes' from_uniform' f_of_u64' 9 sb nested Ef' Lo').
  assert (Ch : exists steps, length steps = 9 /\ forall s, s < 9 -> exists q, multi_passes n (esc_stages nbits points_values) (s_esc_step zeta' np 36 9 s) [] (nth s steps []) q [fr_esc _ _ _ R; fr_pts _ _ _ R]).
  { apply (choose_list [] (fun s rf => exists q, multi_passes n (esc_stages nbits points_values) (s_esc_step zeta' np 36 9 s) [] rf q [fr_esc _ _ _ R; fr_pts _ _ _ R]) 9).
    intros t Ht.
    destruct (step_slot Fs Ts lg reprs hash' to_bytes' from_uniform' f_of_u64' S32' sb nested Ef' Inj' x0' x1' x2' x3' yc' onec' hc' zeta' nbits np 36 9 points_values Hi Hk eq_refl Sl2 Cap t Ht) as (body & ou & S & Ft & _).
    set (cs := coords (p0 :: qs ++ ints)).
    assert (Lc : length cs = points_values). { unfold cs. rewrite coords_length. cbn [length]. rewrite app_length, Lq, Lt. reflexivity. }
    destruct (C52_complete Fs n (esc_stages nbits points_values) (s_esc_step zeta' np 36 9 t) body ou [wi_bits w; cs] [] [bl_esc bl; bl_pts bl]) as (rf & q & rs & Wf & Z & Wq & Lr & _ & C & Rx & Fc & _ & Pa'); auto.
    - discriminate.
    - apply s_esc_step_gen.
    - cbn [map length esc_stages whole snd]. destruct Sz as (Lb & _). now rewrite Lb, Lc.
    - apply esc_holds_iff; auto.
    - destruct rs as [|q1 [|q2 [|]]]; try discriminate Lr.
      destruct (Rx 0 ltac:(cbn; lia)) as [R1 _]. destruct (Rx 1 ltac:(cbn; lia)) as [R2 _]. cbn [nth esc_stages whole fst map firstn rev app] in R1, R2.
      cbn [w wi_bits] in R1. rewrite Eesc in R1. unfold cs in R2. rewrite Ept in R2.
      assert (Q' : forall (a b : poly Fs), Some a = Some b -> a = b) by congruence. apply Q' in R1, R2. subst q1 q2.
      exists rf, q. split; [exact Wf|]. split; [exact Z|]. split; [exact Wq|]. split; [exact C|]. split; [exact Fc|]. exists body, ou. split; [exact S|]. split; [|exact Pa'].
      now rewrite (no_outs Fs zeta' np 36 9 t _ body ou S). }
  destruct Ch as (steps & Ls & Hst).
  exists ra, h1, h2, ic, oc, cv, steps. constructor; auto. exists outs. auto.
Qed.

End TracesAny.

Section Traces.
Variables (F Fs : Field) (T : TwoAdic F) (Ts : TwoAdic Fs) (lg : nat).
Add Field FFu6 : (f_theory F).
Variables (repr : F -> N) (reprs : Fs -> N).
Variables (hash : list N -> list N) (to_bytes : F -> list N) (from_uniform : list N -> F) (f_of_u64 : N -> F).
Variables (hash' : list N -> list N) (to_bytes' : Fs -> list N) (from_uniform' : list N -> Fs) (f_of_u64' : N -> Fs).
Variables (x0 x1 x2 x3 yc onec hc : F) (cb : F) (hs M N' : nat) (P : pparams F) (of_u : N -> F) (tag : list N)
  (nbits : nat) (gen : F) (fsqrt : F -> option F) (zeta : F).
Variables (apps : list (step F)) (sobj : istep -> option (cobj F)).
Variables (x0' x1' x2' x3' yc' onec' hc' zeta' : Fs).
Variable code : place -> circuit F.
Variables (native : registry F) (nested : registry Fs).
Local Notation np := NUM_ENDOSCALING_POINTS.
Hypothesis B : built F Fs T Ts lg repr reprs hash to_bytes from_uniform f_of_u64 hash' to_bytes' from_uniform' f_of_u64'
  x0 x1 x2 x3 yc onec hc cb hs M N' P of_u tag nbits gen fsqrt zeta apps sobj 9 (nested_obj zeta' x0' x1' x2' x3' yc' onec' hc' lg nbits np) code native nested.
Local Notation n := (2 ^ lg).
Local Notation NC := (4 * 2 ^ lg).
Local Notation circuits := (length apps + 15).
Local Notation log2 := (Nat.log2_up (length apps + 15)).
(* the host curve with its endomorphism *)
Variables (b' : Fs) (E : CurveGroup Fs F b' zeta' zeta) (Hs : FMod Fs) (aff' : Hs -> option (F * F)).
Local Notation H := (cg_mod _ _ _ _ _ E).
Local Notation aff := (cg_aff _ _ _ _ _ E).
Variables (heq : H -> H -> bool) (gens : list H) (gens' : list Hs).
Hypothesis Hheq : forall a b : H, heq a b = true <-> a = b.
Hypothesis Hgens : NC <= length gens.
Hypothesis WP : wf_params P.
Hypotheses (Hhs : 0 < hs) (HM : 0 < M) (H22 : 22 <= M * N').
Hypotheses (SS : forall v s : F, fsqrt v = Some s -> (s * s)%F = v) (SN : forall v : F, fsqrt v = None -> ~ square v) (GO : forall v : F, square v \/ square (gen * v)%F).
Hypothesis Ev : Nat.even nbits = true.
Hypothesis Haff : forall c xy, aff' c = Some xy -> on_curve cb xy.
Local Notation verify := (verify T Ts lg repr reprs heq gens cb hs 9 native nested).
Local Notation core_run := (fuse_core F Fs H Hs aff aff' T lg repr native gens gens' cb hs M N' P of_u tag nbits gen fsqrt zeta).
Local Notation stepped := (stepped T lg native gens cb hs M N' P of_u tag log2 nbits gen zeta).
Local Notation bridged := (bridged lg nbits zeta Hs aff aff' gens').
Local Notation assembled := (assembled T lg cb hs M N' P of_u tag log2 nbits gen zeta fsqrt zeta').
Local Notation finish := (fuse_finish F Fs H lg gens).
Local Notation valid := (valid lg native gens cb hs circuits).
Local Notation sound := (sound T lg repr native circuits).
Let Hn : 0 < n. Proof. pose proof (Nat.pow_nonzero 2 lg); lia. Qed.
Let Hi : inputs_len np = Some 36. Proof. reflexivity. Qed.
Let Hk : num_steps np = Some 9. Proof. reflexivity. Qed.

(** ** the traces *)
Lemma run_traces bl cl cr R u pl pi res (alpha s : F) d (l r : fproof F Fs H) :
  stepped bl cl cr R u -> headers_of hs cl -> headers_of hs cr -> step_place (length apps) pl -> place_index (length apps) pl = Some pi ->
  holds (code pl F f1) res -> map (ew F F) res = pv_out cl ++ pv_out cr ++ AppSpec.padded hs s d ->
  (f1 + f1 : Fs)%F <> f0 -> (zeta * zeta + zeta + f1 : F)%F = f0 ->
  (forall m, 0 < m < (3 * 2 ^ (nbits / 2)) * (3 * 2 ^ (nbits / 2)) -> fnat m <> (f0 : F)) ->
  bridged bl l r R ->
  no_clash (lift_native F zeta nbits (fr_endo _ _ _ R)) (pw_initial (fr_points _ _ _ R)) (pw_inputs (fr_points _ _ _ R)) 0 36 ->
  exists app h1 h2 ic oc cv steps, assembled R u (code pl) (pv_out cl) (pv_out cr) (AppSpec.padded hs s d) app h1 h2 ic oc cv steps.
Proof.
  intros Sp Hl Hr Pl Pi Ho Er two lam order Bd Nc.
  refine (traces_with _ _ _ _ _ _ _ _ _ _ _ _ _ _ _ _ _ _ _ _ _ _ _ _ _ _ _ _ _ _ _ _ _ _ _ _ _ _ _ _ _ _ _ _ _ _ B H aff Hs aff' gens gens' Hgens WP Hhs HM H22 SS SN GO
    bl cl cr R u pl pi res alpha s d l r Sp Hl Hr Pl Pi Ho Er Bd _).
  intros p0 qs ints A0 AI AT Lq Lt.
  pose proof (bd_points _ _ _ _ _ _ _ _ _ _ _ _ _ _ Bd) as Hw.
  set (v := fr_endo _ _ _ R) in *. set (pw := fr_points _ _ _ R) in *.
  pose proof (C29_witness F H np (lift_native F zeta nbits v) (snd (fr_f _ _ _ R) :: map snd (p_order (fr_ps _ _ _ R)))) as W. rewrite Hw in W. destruct W as (Lp & Epw & Hk2 & HJ & _).
  assert (Lk : length (pw_interstitials pw) = 9) by (rewrite Hk in Hk2; congruence).
  assert (Li : length (pw_inputs pw) = 36) by (rewrite Epw in Lp; cbn [length] in Lp; change np with 37 in Lp; lia).
  set (w := mk_wires (map (fun j => fe Fs (nbit v j)) (seq 0 nbits)) p0 qs ints).
  intros t Ht. unfold esc_holds. cbn [w wi_bits wi_initial wi_inputs wi_ints].
    pose proof (proj2 (C29_steps Fs F b' zeta' zeta E nbits v 36 9 (pw_initial pw) (pw_inputs pw) p0 qs ints two lam Ev order ltac:(lia) Li eq_refl Lt A0 AI)) as X. unfold ewir in X. rewrite map_map in X.
    apply X; [|exact Ht]. split; [exact Nc|]. intros j Hj. rewrite <- (HJ j m0) by lia.
    assert (Y : nth_error (map aff (pw_interstitials pw)) j = nth_error (map Some ints) j) by now rewrite AT.
    rewrite !nth_error_map in Y. destruct (nth_error (pw_interstitials pw) j) as [Q'|] eqn:EQ; [|apply nth_error_None in EQ; lia].
    rewrite (nth_error_nth _ _ _ EQ). cbn [option_map] in Y. destruct (nth_error ints j) as [q|]; cbn [option_map] in Y; congruence.
Qed.

End Traces.
