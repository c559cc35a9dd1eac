(** The prover's step in a built application: how a run can end. *)
From Coq Require Import List Arith NArith Bool Lia Ring Field.
From Verif Require ParProofs.
From Verif Require Import FieldDef ModDef ArithModel ArithSpec ArithProofs FFTModel FFTProofs SparseModel SparseSpec SparseProofs SparseProofs2 CircModel CircSpec SyModel TraceModel CircProofs SatProofs GadgetModel GadgetSpec PointSpec EndoSpec EndoProofs EscModel EscSpec
  FoldModel FoldSpec FoldProofs TxzProofs SpongeModel SpongeSpec ClaimModel StageModel StageSpec StageProofs StageProofs2 RegModel RegSpec RegProofs RegProofs2 PcdModel PcdSpec PcdProofs2 QvModel AppModel AppSpec AppProofs
  RecModel RecSpec CompileModel CompileSpec CompileSpec2 CompileProofs CompileProofs2 RecStageModel RecStageSpec RecStageProofs Props_Stage Props_App Props_Comp Props_Esc Props_Rec Props_Step
  VerifyModel VerifySpec VerifySpec2 VerifyProofs VerifyProofs2 VerifyProofs3 VerifyProofs4 VerifyProofs5 VerifyProofs6 VerifyProofs7 VerifyProofs8 VerifyProofs9 VerifyProofs10 Props_Verify
  NestedModel NestedSpec NestedProofs Props_Nested FuseModel FuseSpec FuseProofs FuseProofs2 FuseProofs3 FuseProofs4 FuseProofs5 FuseProofs6.
Import ListNotations.
Local Open Scope nat_scope.

Section Ends.
Variables (F Fs : Field) (T : TwoAdic F) (Ts : TwoAdic Fs) (lg : nat).
Add Field FFu10 : (f_theory F).
Variables (repr : F -> N) (reprs : Fs -> N).
Variables (hash : list N -> list N) (to_bytes : F -> list N) (from_uniform : list N -> F) (f_of_u64 : N -> F).
Variables (hash' : list N -> list N) (to_bytes' : Fs -> list N) (from_uniform' : list N -> Fs) (f_of_u64' : N -> Fs).
Variables (x0 x1 x2 x3 yc onec hc : F) (cb : F) (hs M N' : nat) (P : pparams F) (of_u : N -> F) (tag : list N)
  (nbits : nat) (gen : F) (fsqrt : F -> option F) (zeta : F).
Variables (apps : list (step F)) (sobj : istep -> option (cobj F)).
Variables (x0' x1' x2' x3' yc' onec' hc' zeta' : Fs).
Variable code : place -> circuit F.
Variables (native : registry F) (nested : registry Fs).
Local Notation np := NUM_ENDOSCALING_POINTS.
Hypothesis B : built F Fs T Ts lg repr reprs hash to_bytes from_uniform f_of_u64 hash' to_bytes' from_uniform' f_of_u64'
  x0 x1 x2 x3 yc onec hc cb hs M N' P of_u tag nbits gen fsqrt zeta apps sobj 9 (nested_obj zeta' x0' x1' x2' x3' yc' onec' hc' lg nbits np) code native nested.
Local Notation n := (2 ^ lg).
Local Notation NC := (4 * 2 ^ lg).
Local Notation circuits := (length apps + 15).
Local Notation log2 := (Nat.log2_up (length apps + 15)).
(* the two curves through the coordinates of their points *)
Variables (H : FMod F) (aff : H -> option (Fs * Fs)) (Hs : FMod Fs) (aff' : Hs -> option (F * F)).
Variables (heq : H -> H -> bool) (gens : list H) (gens' : list Hs).
Hypothesis Hheq : forall a b : H, heq a b = true <-> a = b.
Hypothesis Hgens : NC <= length gens.
Hypothesis Hgens' : NC <= length gens'.
Hypothesis WP : wf_params P.
Hypotheses (Hhs : 0 < hs) (HM : 0 < M) (H22 : 22 <= M * N').
Hypotheses (SS : forall v s : F, fsqrt v = Some s -> (s * s)%F = v) (SN : forall v : F, fsqrt v = None -> ~ square v) (GO : forall v : F, square v \/ square (gen * v)%F).
Hypothesis Ev : Nat.even nbits = true.
Hypothesis Haff : forall c xy, aff' c = Some xy -> on_curve cb xy.
Local Notation verify := (verify T Ts lg repr reprs heq gens cb hs 9 native nested).
Local Notation core_run := (fuse_core F Fs H Hs aff aff' T lg repr native gens gens' cb hs M N' P of_u tag nbits gen fsqrt zeta).
Local Notation stepped := (stepped T lg native gens cb hs M N' P of_u tag log2 nbits gen zeta).
Local Notation bridged := (bridged lg nbits zeta Hs aff aff' gens').
Local Notation assembled := (assembled T lg cb hs M N' P of_u tag log2 nbits gen zeta fsqrt zeta').
Local Notation finish := (fuse_finish F Fs H lg gens).
Local Notation valid := (valid lg native gens cb hs circuits).
Local Notation sound := (sound T lg repr native circuits).
Let Hn : 0 < n. Proof. pose proof (Nat.pow_nonzero 2 lg); lia. Qed.
Let Hi : inputs_len np = Some 36. Proof. reflexivity. Qed.
Let Hk : num_steps np = Some 9. Proof. reflexivity. Qed.


(** ** the stages fit *)
Lemma mask_fits parents v : mask_obj (F := F) lg (stage_mask n parents v) <> None -> skip_gates parents + stage_gates v <= n.
Proof.
  unfold mask_obj, stage_mask, mask_new. destruct (Nat.eqb _ _); [intros X; now elim X|]. destruct (n <? _) eqn:E; [intros X; now elim X|]. apply Nat.ltb_ge in E. auto.
Qed.
Lemma mask_fits' parents v : mask_obj (F := Fs) lg (stage_mask n parents v) <> None -> skip_gates parents + stage_gates v <= n.
Proof.
  unfold mask_obj, stage_mask, mask_new. destruct (Nat.eqb _ _); [intros X; now elim X|]. destruct (n <? _) eqn:E; [intros X; now elim X|]. apply Nat.ltb_ge in E. auto.
Qed.
Lemma built_all : (forall id, iobj F T lg x0 x1 x2 x3 yc onec hc cb hs M N' P of_u tag nbits gen fsqrt zeta log2 id <> None) /\
  (forall id, In id (ncid_all 9) -> nested_obj zeta' x0' x1' x2' x3' yc' onec' hc' lg nbits np id <> None).
Proof.
  destruct (bl_run _ _ _ _ _ _ _ _ _ _ _ _ _ _ _ _ _ _ _ _ _ _ _ _ _ _ _ _ _ _ _ _ _ _ _ _ _ _ _ _ B) as (b & nb & sb & Hb & _).
  pose proof B as [_ B2 B3 B4 B5 B6 B7].
  destruct (C54_builds F Fs T Ts lg repr reprs hash to_bytes from_uniform f_of_u64 hash' to_bytes' from_uniform' f_of_u64' x0 x1 x2 x3 yc onec hc cb hs M N' P of_u tag nbits gen fsqrt zeta
    apps sobj 9 _ code b Hb B2 B3 B4 B5 B6 B7) as [X _].
  destruct X as (Y1 & _ & Y2 & _); [eauto|]. auto.
Qed.

(** ** a run never gets stuck *)
Lemma run_good (l r : fproof F Fs H) ul ur ol or bl : valid l ul -> valid r ur -> length ol = hs -> length or = hs -> good (core_run l r ol or bl).
Proof.
  intros Vl Vr Lol Lor.
  destruct (native_builder _ _ _ _ _ _ _ _ _ _ _ _ _ _ _ _ _ _ _ _ _ _ _ _ _ _ _ _ _ _ _ _ _ _ _ _ _ _ _ _ B) as (nb & Ef & Lg & Lo & Sl & St & Fo).
  destruct (bl_two _ _ _ _ _ _ _ _ _ _ _ _ _ _ _ _ _ _ _ _ _ _ _ _ _ _ _ _ _ _ _ _ _ _ _ _ _ _ _ _ B) as [S32 _].
  pose proof (bl_key _ _ _ _ _ _ _ _ _ _ _ _ _ _ _ _ _ _ _ _ _ _ _ _ _ _ _ _ _ _ _ _ _ _ _ _ _ _ _ _ B) as K.
  destruct built_all as [Bn Bs].
  destruct (forall_exists2 (obj_is lg) (reg_order nb) Fo) as (ss & Obj). pose proof (ParProofs.Forall2_length Obj) as Ls. rewrite Lo in Ls. symmetry in Ls.
  rewrite <- Ls in *.
  refine (runs F Fs H Hs aff aff' T lg repr native gens gens' cb hs M N' P of_u tag nbits gen fsqrt zeta hash to_bytes from_uniform f_of_u64 nb ss S32 Ef Obj K ltac:(lia) WP HM H22 Hgens Hgens' SS SN GO Ev
    _ _ _ l r ul ur ol or bl Vl Vr Lol Lor).
  - unfold sfits. split; [|split; [|split; [|split]]]; apply mask_fits.
    + exact (Bn PreambleStage). + exact (Bn OuterErrorStage). + exact (Bn InnerErrorStage). + exact (Bn QueryStage). + exact (Bn EvalStage).
  - unfold sfits. repeat split; apply mask_fits'.
    + exact (Bs NBridgePreamble ltac:(cbn; tauto)). + exact (Bs NBridgeSPrime ltac:(cbn; tauto)). + exact (Bs NBridgeInnerError ltac:(cbn; tauto)). + exact (Bs NBridgeOuterError ltac:(cbn; tauto)).
    + exact (Bs NBridgeAB ltac:(cbn; tauto)). + exact (Bs NBridgeQuery ltac:(cbn; tauto)). + exact (Bs NBridgeF ltac:(cbn; tauto)). + exact (Bs NBridgeEval ltac:(cbn; tauto)).
  - unfold sfits. split; apply mask_fits'; [exact (Bs NEndoscalar ltac:(cbn; tauto))|exact (Bs NPoints ltac:(cbn; tauto))].
Qed.
Lemma trivial_some : exists c, trivial_proof F Fs H Hs aff' lg native gens gens' hs 9 = Some c.
Proof.
  destruct (slots_ok F Fs T Ts lg repr reprs hash to_bytes from_uniform f_of_u64 hash' to_bytes' from_uniform' f_of_u64' x0 x1 x2 x3 yc onec hc cb hs M N' P of_u tag nbits gen fsqrt zeta
    apps sobj 9 _ code native nested B) as (_ & _ & Sx). destruct (Sx f1 f1) as (xy & Exy & Wxy & _).
  unfold trivial_proof, ones. change (rk_nc lg) with NC. change (rk_n lg) with n.
  destruct (trace_build_ok F n [f1] [f1] [f1] [f1]) as (o & Eo & Wo & _); try (cbn [length]; lia).
  destruct (trace_build_ok Fs n [f1] [f1] [f1] [f1]) as (os & Eos & Wos & _); try (cbn [length]; lia).
  rewrite Eo. cbn [obind]. rewrite (commit_ok F NC H gens o Wo Hgens). cbn [obind]. rewrite Eos. cbn [obind]. rewrite (commit_ok Fs NC Hs gens' os Wos Hgens'). cbn [obind].
  rewrite Exy. cbn [obind]. rewrite (commit_ok F NC H gens xy Wxy Hgens). cbn [obind]. eauto.
Qed.
End Ends.
