(** The registries of an application. *)
From Coq Require Import List Arith NArith Bool Lia Ring Field.
From Verif Require Import FieldDef ModDef ArithModel ArithSpec ArithProofs FFTModel FFTProofs SparseModel SparseSpec SparseProofs SparseProofs2 TModel TProofs
  FoldModel FoldSpec ClaimModel CircModel CircSpec SyModel SProofs TraceModel CircProofs CircProofs2 SyProofs SyProofs2 SatProofs GadgetModel SpongeModel StageModel StageSpec StageProofs RegModel RegSpec RegProofs RegProofs2
  PcdModel PcdSpec PcdProofs2 RecModel RecSpec CompileModel CompileSpec CompileSpec2 CompileProofs CompileProofs2 RecStageModel RecStageSpec RecStageProofs
  AppModel AppSpec AppProofs Props_Reg Props_Stage Props_App Props_Step
  VerifyModel VerifySpec VerifySpec2 VerifyProofs VerifyProofs2 VerifyProofs3 VerifyProofs4 VerifyProofs5 VerifyProofs6 VerifyProofs7.
Import ListNotations.
Local Open Scope nat_scope.

Lemma mask_is (F : Field) lg m : 1 <= fst m -> fst m + snd m <= 2 ^ lg -> exists s, obj_is (F := F) lg (mask_cobj F (2 ^ lg) m) s.
Proof.
  destruct m as [skip num]. cbn [fst snd]. intros H1 H2. exists (fun x y => mask_poly (2 ^ lg) skip num (fmul x y)). unfold obj_is. cbv zeta.
  intros x y. assert (E : mask_new (2 ^ lg) skip num = Some (skip, num)).
  { unfold mask_new. destruct (Nat.eqb_spec skip 0); [lia|]. destruct (Nat.ltb_spec (2 ^ lg) (skip + num)); [lia|reflexivity]. }
  exact (C24_mask_values F (2 ^ lg) skip num x y (skip, num) E).
Qed.
Lemma hides_split {F : Field} (body : prog F) outs : hides_d (orchestrate body outs) = true -> hides_d body = true /\ forallb ref_hides outs = true.
Proof.
  intros H. assert (X : hides_d (prog_app body (enforce_outputs outs)) = true) by (revert H; unfold orchestrate; cbn [hides_d]; auto).
  rewrite hides_app, hides_outs in X. now apply andb_true_iff in X.
Qed.

Section App.
  Variables (F Fs : Field) (T : TwoAdic F) (Ts : TwoAdic Fs) (lg : nat).
  Add Field FFvap : (f_theory F).
  Variables (repr : F -> N) (reprs : Fs -> N).
  Variables (hash : list N -> list N) (to_bytes : F -> list N) (from_uniform : list N -> F) (f_of_u64 : N -> F).
  Variables (hash' : list N -> list N) (to_bytes' : Fs -> list N) (from_uniform' : list N -> Fs) (f_of_u64' : N -> Fs).
  Variables (x0 x1 x2 x3 yc onec hc : F) (cb : F) (hs M N' : nat) (P : pparams F) (of_u : N -> F) (tag : list N)
    (nbits : nat) (gen : F) (fsqrt : F -> option F) (zeta : F).
  Variables (l : list (step F)) (sobj : istep -> option (cobj F)) (nsteps : nat) (nobj : ncid -> option (cobj Fs)).
  Variable code : place -> circuit F.
  Variables (native : registry F) (nested : registry Fs).
  Hypothesis B : built F Fs T Ts lg repr reprs hash to_bytes from_uniform f_of_u64 hash' to_bytes' from_uniform' f_of_u64'
    x0 x1 x2 x3 yc onec hc cb hs M N' P of_u tag nbits gen fsqrt zeta l sobj nsteps nobj code native nested.
  Local Notation log2 := (Nat.log2_up (length l + 15)).
  Local Notation io := (iobj F T lg x0 x1 x2 x3 yc onec hc cb hs M N' P of_u tag nbits gen fsqrt zeta log2).
  Local Notation n := (2 ^ lg).

  Lemma code_is p o : step_place (length l) p -> place_obj l io sobj p = Some o -> exists s, obj_is lg o s.
  Proof.
    intros Sp E. destruct (bl_step _ _ _ _ _ _ _ _ _ _ _ _ _ _ _ _ _ _ _ _ _ _ _ _ _ _ _ _ _ _ _ _ _ _ _ _ _ _ _ _ B p Sp) as (G & outs & Eo & _ & Ep).
    destruct (circuit_owned (code p) outs G Eo) as [O Hh]. destruct (hides_split _ _ Hh) as [H1 H2]. rewrite Ep in E.
    eexists. exact (prog_cobj_is F x0 x1 x2 x3 yc onec hc lg _ _ _ E O H1 H2).
  Qed.
  Lemma io_is id o : io id = Some o -> exists s, obj_is lg o s.
  Proof.
    assert (XM : forall mk o, mask_obj lg mk = Some o -> (forall m, mk = Some m -> 1 <= fst m /\ fst m + snd m <= n) -> exists s : F -> F -> F, obj_is lg o s).
    { intros mk o' E Hm. unfold mask_obj in E. destruct mk as [m|]; [|discriminate]. cbn [option_map] in E. injection E as <-. destruct (Hm m eq_refl). now apply mask_is. }
    assert (XC : forall stages (c : staged F) o, generic_staged c -> multi_obj x0 x1 x2 x3 yc onec hc lg stages c = Some o -> exists s, obj_is lg o s).
    { intros stages c o' G E. unfold multi_obj in E. destruct (sprog stages c) as [[body outs]|] eqn:S; [|discriminate]. cbn [obind fst snd] in E.
      destruct (staged_owned stages c body outs G S) as [O Hh]. destruct (hides_split _ _ Hh) as [H1 H2]. eexists. exact (prog_cobj_is F x0 x1 x2 x3 yc onec hc lg _ _ _ E O H1 H2). }
    assert (SM : forall pa v m, stage_mask n pa v = Some m -> (1 <= fst m /\ fst m + snd m <= n)) by (intros pa v m; apply mask_new_inv).
    assert (SF : forall pa v m, stage_final_mask n pa v = Some m -> (1 <= fst m /\ fst m + snd m <= n)) by (intros pa v m; apply mask_final_inv).
    unfold iobj. destruct id; cbn [native_obj].
    - apply XC, s_hashes_1_gen.
    - apply XC, s_hashes_2_gen.
    - apply XC, s_inner_gen.
    - apply XC, s_outer_gen.
    - apply XC, s_compute_v_gen.
    - intros E. exact (XM _ _ E (SM _ _)).
    - intros E. exact (XM _ _ E (SM _ _)).
    - intros E. exact (XM _ _ E (SM _ _)).
    - intros E. exact (XM _ _ E (SM _ _)).
    - intros E. exact (XM _ _ E (SM _ _)).
    - intros E. exact (XM _ _ E (SF _ _)).
    - intros E. exact (XM _ _ E (SF _ _)).
    - intros E. exact (XM _ _ E (SF _ _)).
  Qed.

  (** the native builder *)
  Lemma native_builder : exists nb, finalize F T lg repr hash to_bytes from_uniform f_of_u64 nb = Some native /\
    log2_circuits F nb = log2 /\ length (reg_order nb) = length l + 15 /\
    (forall id, exists o, io id = Some o /\ nth_error (reg_order nb) (internal_index id) = Some o) /\
    (forall i, 13 <= i < length l + 15 -> exists p, step_place (length l) p /\ place_index (length l) p = Some i /\ nth_error (reg_order nb) i = place_obj l io sobj p) /\
    Forall (fun o => exists s, obj_is lg o s) (reg_order nb).
  Proof.
    destruct (bl_run _ _ _ _ _ _ _ _ _ _ _ _ _ _ _ _ _ _ _ _ _ _ _ _ _ _ _ _ _ _ _ _ _ _ _ _ _ _ _ _ B) as (b & nb & sb & E1 & E2 & E3 & E4).
    destruct (bl_two _ _ _ _ _ _ _ _ _ _ _ _ _ _ _ _ _ _ _ _ _ _ _ _ _ _ _ _ _ _ _ _ _ _ _ _ _ _ _ _ B) as [S32 _].
    destruct (C37_slots F Fs l b nsteps (iobj F T lg x0 x1 x2 x3 yc onec hc cb hs M N' P of_u tag nbits gen fsqrt zeta) sobj nobj E1) as [_ X]. cbv zeta in X.
    destruct (X nb sb E2) as [Ln Y]. destruct (Y T lg repr hash to_bytes from_uniform f_of_u64 native S32 E3) as (Y1 & Y2 & Y3 & _).
    assert (Or := order_is F T lg repr hash to_bytes from_uniform f_of_u64 nb native E3). rewrite Or in Y1.
    assert (Lo : length (reg_order nb) = length l + 15) by (rewrite order_length; exact Ln).
    assert (St : forall i, 13 <= i < length l + 15 -> exists p, step_place (length l) p /\ place_index (length l) p = Some i /\ nth_error (reg_order nb) i = place_obj l io sobj p).
    { intros i Hi. destruct (Y3 i ltac:(lia)) as (p & Op & Ep). exists p. destruct (Y1 p Op) as (i' & Ep' & _ & Eo & _). rewrite Ep in Ep'. injection Ep' as <-.
      split; [|split; [exact Ep|exact Eo]]. destruct p as [id|s|j]; cbn [step_place place_ok] in *; auto.
      cbn [place_index] in Ep. rewrite index_internal in Ep. injection Ep as <-. pose proof (internal_lt id). lia. }
    assert (Sl : forall id, exists o, io id = Some o /\ nth_error (reg_order nb) (internal_index id) = Some o).
    { intros id. destruct (Y1 (PCircuit id) Logic.I) as (i & Ei & _ & Eo & Ne). cbn [place_index place_obj] in *. rewrite index_internal in Ei. injection Ei as <-.
      destruct (io id) as [o|] eqn:Eid; [|congruence]. exists o. auto. }
    exists nb. split; [exact E3|]. split; [unfold log2_circuits; rewrite Ln; reflexivity|]. split; [exact Lo|]. split; [exact Sl|]. split; [exact St|].
    apply Forall_forall. intros o Ho. destruct (In_nth_error _ _ Ho) as (i & Ei). assert (Li : i < length l + 15) by (rewrite <- Lo; apply nth_error_Some; congruence).
    destruct (Nat.lt_ge_cases i 13) as [L|L].
    - destruct (Y3 i Li) as (p & Op & Ep). destruct p as [id|s|j].
      + cbn [place_index] in Ep. rewrite index_internal in Ep. injection Ep as <-. destruct (Sl id) as (o' & Eo & En). rewrite Ei in En. injection En as <-. exact (io_is id o Eo).
      + destruct (Y1 _ Op) as (i' & Ep' & _ & Eo & _). rewrite Ep in Ep'. injection Ep' as <-. rewrite Ei in Eo. exact (code_is (PStep s) o Logic.I (eq_sym Eo)).
      + destruct (Y1 _ Op) as (i' & Ep' & _ & Eo & _). rewrite Ep in Ep'. injection Ep' as <-. rewrite Ei in Eo. exact (code_is (PApp j) o Op (eq_sym Eo)).
    - destruct (St i ltac:(lia)) as (p & Sp & _ & Eo). rewrite Ei in Eo. exact (code_is p o Sp (eq_sym Eo)).
  Qed.
  (** the nested builder *)
  Lemma nested_builder : exists sb, finalize Fs Ts lg reprs hash' to_bytes' from_uniform' f_of_u64' sb = Some nested /\
    log2_circuits Fs sb = Nat.log2_up (nsteps + 11) /\ length (reg_order sb) = nsteps + 11 /\
    (forall id, In id (ncid_all nsteps) -> exists i, nested_circuit_index nsteps id = Some i /\ nth_error (reg_order sb) i = nobj id /\ nobj id <> None) /\
    Forall (fun o => exists s, obj_is lg o s) (reg_order sb).
  Proof.
    destruct (bl_run _ _ _ _ _ _ _ _ _ _ _ _ _ _ _ _ _ _ _ _ _ _ _ _ _ _ _ _ _ _ _ _ _ _ _ _ _ _ _ _ B) as (b & nb & sb & E1 & E2 & E3 & E4).
    pose proof (bl_count _ _ _ _ _ _ _ _ _ _ _ _ _ _ _ _ _ _ _ _ _ _ _ _ _ _ _ _ _ _ _ _ _ _ _ _ _ _ _ _ B) as Ct.
    pose proof (bl_nested _ _ _ _ _ _ _ _ _ _ _ _ _ _ _ _ _ _ _ _ _ _ _ _ _ _ _ _ _ _ _ _ _ _ _ _ _ _ _ _ B) as Bn.
    destruct (steps_ok F Fs l _ _ (new_ok F Fs)) as (Q & _). specialize (Q b E1). destruct Q as (_ & _ & _ & _ & Ne & _ & _).
    assert (R : nested_register_all Fs nsteps nobj (rb_new Fs) = Some sb).
    { unfold app_finalize in E2. destruct (total_circuit_counts (ab_steps b)) as [total lg2]. 
      destruct (native_register_all _ _ _) in E2; [|discriminate]. cbn [obind] in E2. destruct (sobj IRerandomize) in E2; [|discriminate]. cbn [obind] in E2.
      destruct (sobj ITrivial) in E2; [|discriminate]. cbn [obind] in E2. destruct (negb _) in E2; [discriminate|]. destruct (negb _) in E2; [discriminate|].
      rewrite Ne in E2. destruct (nested_register_all Fs nsteps nobj (rb_new Fs)) as [sb'|] in E2 |- *; [|discriminate]. cbn [obind] in E2. congruence. }
    destruct (C37_nested Fs nsteps nobj sb Ct R) as (Lc & Sl & Un). fold (reg_order sb) in Lc, Sl.
    exists sb. split; [exact E4|]. split; [unfold log2_circuits; rewrite <- order_length, Lc; reflexivity|]. split; [exact Lc|]. split; [exact Sl|].
    apply Forall_forall. intros o Ho. destruct (In_nth_error _ _ Ho) as (i & Ei). assert (Li : i < nsteps + 11) by (rewrite <- Lc; apply nth_error_Some; congruence).
    assert (X : exists id, In id (ncid_all nsteps) /\ nested_circuit_index nsteps id = Some i).
    { assert (LA : length (ncid_all nsteps) = nsteps + 11) by (unfold ncid_all; rewrite app_length, map_length, seq_length; reflexivity).
      destruct (nth_error (ncid_all nsteps) i) as [id|] eqn:Ei'; [|apply nth_error_None in Ei'; lia]. exists id. split; [eapply nth_error_In; eauto|].
      unfold nested_circuit_index. rewrite (proj2 (position_ok ncid_eqb ncid_eqb_eq (ncid_all nsteps) id i (ncid_nodup nsteps)) Ei'). cbn [obind].
      unfold circuit_index_new. destruct (N.ltb_spec (N.of_nat i) (2 ^ 32)) as [L|L]; [reflexivity|]. exfalso. apply (N.lt_irrefl (N.of_nat i)).
      eapply N.lt_le_trans; [|exact L]. eapply N.lt_trans; [|exact Ct]. lia. }
    destruct X as (id & Iid & Ein). destruct (Sl id Iid) as (i' & Ei' & En & _). rewrite Ein in Ei'. injection Ei' as <-. rewrite Ei in En. exact (Bn id o Iid (eq_sym En)).
  Qed.
End App.

(** every slot of a finalized registry of such objects evaluates *)
Lemma slot_wf (F : Field) (T : TwoAdic F) (lg : nat) (repr : F -> N) hash to_bytes from_uniform f_of_u64 (b : builder F) (r : registry F) :
  ta_S T <= 32 -> finalize F T lg repr hash to_bytes from_uniform f_of_u64 b = Some r ->
  (forall w w' : F, fpow w (2 ^ log2_circuits F b) = f1 -> fpow w' (2 ^ log2_circuits F b) = f1 -> omega_key F repr w = omega_key F repr w' -> w = w') ->
  Forall (fun o => exists s, obj_is lg o s) (reg_order b) ->
  forall i y, i < 2 ^ log2_circuits F b -> circuit_y F T lg repr r (N.of_nat i) y = Some (syr F T lg repr r y i) /\ wf 0 (4 * 2 ^ lg) (syr F T lg repr r y i).
Proof.
  intros S32 Hf inj Fo i y Hi. rewrite Forall_forall in Fo.
  assert (X : exists q, match nth_error (reg_order b) i with Some c => ob_sy F c y (floor_plan (ob_segs F c)) = Some q | None => q = [] end /\ wf 0 (4 * 2 ^ lg) q).
  { destruct (nth_error (reg_order b) i) as [c|] eqn:E; [|now exists []]. destruct (Fo c (nth_error_In _ _ E)) as (s & Hs).
    destruct (Hs f0 y) as (_ & _ & q & Eq & Wq & _). exists q. auto. }
  destruct X as (q & Eq & Wq). destruct (slot_y F T lg repr hash to_bytes from_uniform f_of_u64 S32 b r Hf inj i y q Hi Eq Wq) as (m & Em & Wm & _).
  unfold syr. rewrite Em. auto.
Qed.
