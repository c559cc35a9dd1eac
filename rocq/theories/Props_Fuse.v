(** C57: the prover's step (Application::fuse) and the verifier fit together. *)
From Coq Require Import List Arith NArith Bool Lia.
From Verif Require Import FieldDef ModDef ArithModel FFTModel SparseModel SparseSpec CircModel CircSpec SatProofs GadgetModel GadgetSpec PointSpec EndoSpec EscModel EscSpec
  FoldModel SpongeModel SpongeSpec StageModel StageSpec RegModel PcdModel PcdSpec QvModel AppModel AppSpec AppProofs RecModel RecSpec RecProofs RecProofs2 CompileModel CompileSpec CompileSpec2 RecStageModel RecStageSpec Props_Rec Props_Step
  VerifyModel VerifySpec VerifySpec2 NestedModel NestedSpec FuseModel FuseSpec FuseProofs FuseProofs3 FuseProofs4 FuseProofs5 FuseProofs6 FuseProofs7.
Import ListNotations.
Local Open Scope nat_scope.

Section C57.
Variables (F Fs : Field) (T : TwoAdic F) (Ts : TwoAdic Fs) (lg : nat).
Variables (repr : F -> N) (reprs : Fs -> N).
Variables (hash : list N -> list N) (to_bytes : F -> list N) (from_uniform : list N -> F) (f_of_u64 : N -> F).
Variables (hash' : list N -> list N) (to_bytes' : Fs -> list N) (from_uniform' : list N -> Fs) (f_of_u64' : N -> Fs).
Variables (x0 x1 x2 x3 yc onec hc : F) (cb : F) (hs M N' : nat) (P : pparams F) (of_u : N -> F) (tag : list N)
  (nbits : nat) (gen : F) (fsqrt : F -> option F) (zeta : F).
Variables (apps : list (step F)) (sobj : istep -> option (cobj F)).
Variables (x0' x1' x2' x3' yc' onec' hc' zeta' : Fs).
Variable code : place -> circuit F.
Variables (native : registry F) (nested : registry Fs).
(* an application: 37 points are endoscaled, in nine steps *)
Hypothesis B : built F Fs T Ts lg repr reprs hash to_bytes from_uniform f_of_u64 hash' to_bytes' from_uniform' f_of_u64'
  x0 x1 x2 x3 yc onec hc cb hs M N' P of_u tag nbits gen fsqrt zeta apps sobj 9 (nested_obj zeta' x0' x1' x2' x3' yc' onec' hc' lg nbits NUM_ENDOSCALING_POINTS) code native nested.
Local Notation n := (2 ^ lg).
Local Notation circuits := (length apps + 15).
Local Notation log2 := (Nat.log2_up (length apps + 15)).
Hypothesis WP : wf_params P.
Hypotheses (Hhs : 0 < hs) (HM : 0 < M) (H22 : 22 <= M * N').
(* square roots, and a non-square generator *)
Hypotheses (SS : forall v s : F, fsqrt v = Some s -> (s * s)%F = v) (SN : forall v : F, fsqrt v = None -> ~ square v) (GO : forall v : F, square v \/ square (gen * v)%F).
Hypothesis Ev : Nat.even nbits = true.

Section Run.
(* the two curves through the coordinates of their points *)
Variables (H : FMod F) (aff : H -> option (Fs * Fs)) (Hs : FMod Fs) (aff' : Hs -> option (F * F)).
Variables (heq : H -> H -> bool) (gens : list H) (gens' : list Hs).
Hypothesis Hheq : forall a b : H, heq a b = true <-> a = b.
Hypothesis Hgens : 4 * n <= length gens.
Hypothesis Haff : forall c xy, aff' c = Some xy -> on_curve cb xy.
Local Notation verify := (verify T Ts lg repr reprs heq gens cb hs 9 native nested).
Local Notation fuse := (fuse_core F Fs H Hs aff aff' T lg repr native gens gens' cb hs M N' P of_u tag nbits gen fsqrt zeta).
Local Notation trivial := (trivial_proof F Fs H Hs aff' lg native gens gens' hs 9).
Local Notation finish := (fuse_finish F Fs H lg gens).
Local Notation stepped := (stepped T lg native gens cb hs M N' P of_u tag log2 nbits gen zeta).
Local Notation bridged := (bridged lg nbits zeta Hs aff aff' gens').
Local Notation assembled := (assembled T lg cb hs M N' P of_u tag log2 nbits gen zeta fsqrt zeta').
Local Notation valid := (valid lg native gens cb hs circuits).
Local Notation sound := (sound T lg repr native circuits).

(** The prover's run on two proofs: if the children are well formed, and both are trivial
    or the claims of both hold, then the values computed outside the circuits meet the
    step relation for the children and the new instance, the stages and bridges carry
    them, and the five circuits of the step run on them and cover the instance; unless
    the challenges x or z are zero or u is one of the points opened. *)
Theorem C57_step : forall (l r : fproof F Fs H) ul ur ol or bl R, valid l ul -> valid r ur -> length ol = hs -> length or = hs ->
  fuse l r ol or bl = inr R -> ~ degenerate T l r R ->
  is_base (shown T (fp_proof l) ul ol) (shown T (fp_proof r) ur or) \/ (sound l ul ol /\ sound r ur or) ->
  exists u, let cl := shown T (fp_proof l) ul ol in let cr := shown T (fp_proof r) ur or in
    stepped bl cl cr R u /\ bridged bl l r R /\
    exists c1 c2 c3 c4 c5,
      let pre := pre_of true cl cr in let o := oe_of true (fr_outer _ _ _ R) in let plain := map hon (u_write u ++ [f0]) in
      (forall st, exists st', simulate (hashes_1 F F f1 true cb P of_u tag log2 pre o (inst_of true u cov_default)) st = Some ((map hon (u_write u ++ ol ++ or ++ [f0]), Some c1), st')) /\
      (forall st, exists st', simulate (hashes_2 F F f1 true cb P o (inst_of true u c1)) st = Some ((plain, Some c2), st')) /\
      (forall st, exists st', simulate (inner_collapse F F f1 true cb M pre o (map (map hon) (fr_errors _ _ _ R)) (inst_of true u c2)) st = Some ((plain, Some c3), st')) /\
      (forall st, exists st', simulate (outer_collapse F F f1 true cb N' pre o (inst_of true u c3)) st = Some ((plain, Some c4), st')) /\
      (forall st, exists st', simulate (compute_v F F f1 true cb lg M N' nbits gen fsqrt zeta (internal_omega T) pre (query_of F true (fr_queries _ _ _ R)) (eval_of F true (fr_evals _ _ _ R)) (inst_of true u c4)) st
                              = Some ((plain, Some c5), st')) /\
      assert_complete c5 = true.
Proof.
  intros l r ul ur ol or bl R Vl Vr Lol Lor Run Deg Chi.
  destruct (run_stepped _ _ _ _ _ _ _ _ _ _ _ _ _ _ _ _ _ _ _ _ _ _ _ _ _ _ _ _ _ _ _ _ _ _ _ _ _ _ _ _ _ _ _ _ _ _ B H aff Hs aff' gens gens' Hgens WP Hhs HM H22 SS SN GO Ev Haff
    l r ul ur ol or bl R Vl Vr Lol Lor Run Deg Chi) as (u & Sp).
  exists u. cbv zeta. split; [exact Sp|]. split; [eapply nested_core; exact Run|].
  destruct (sp_outer_size Sp) as (O1 & O2 & O3). destruct (sp_inner_size Sp) as (I1 & I2).
  assert (Nl : pv_out (shown T (fp_proof l) ul ol) <> []) by (cbn [shown pv_out]; intros ->; cbn in Lol; lia).
  assert (Nr : pv_out (shown T (fp_proof r) ur or) <> []) by (cbn [shown pv_out]; intros ->; cbn in Lor; lia).
  destruct (C45_complete F P cb of_u tag log2 lg M N' nbits gen fsqrt zeta (internal_omega T) WP _ _ _ _ _ _ u
    O3 I2 ltac:(rewrite O2, I1; auto) Nl Nr O1 O2 H22 SS SN GO (sp_transcript Sp) (sp_step Sp)) as (c1 & c2 & c3 & c4 & c5 & X).
  cbv zeta in X. exists c1, c2, c3, c4, c5. cbn [shown pv_out] in X. intuition.
Qed.

(** The finished proof: with passing traces for the step's circuit, the five recursion
    circuits and the nine endoscaling steps, the prover returns a proof that is again
    well formed, whose claims hold for the new header, and which the verifier accepts at
    every challenge. *)
Theorem C57_fused : forall (l r : fproof F Fs H) bl cl cr R u pl id s d app h1 h2 ic oc cv steps,
  stepped bl cl cr R u -> bridged bl l r R -> headers_of hs cl -> headers_of hs cr ->
  step_place (length apps) pl -> place_index (length apps) pl = Some (N.to_nat id) -> length d < hs ->
  assembled R u (code pl) (pv_out cl) (pv_out cr) (AppSpec.padded hs s d) app h1 h2 ic oc cv steps ->
  exists c, finish R id (pv_out cl) (pv_out cr) app h1 h2 ic oc cv steps = Some c /\
    valid c u /\ sound c u (AppSpec.padded hs s d) /\
    forall w y z y' z', verify (fp_proof c) (Some s) (Some d) w y z y' z' = Some true.
Proof.
  intros l r bl cl cr R u pl id s d app h1 h2 ic oc cv steps Sp Bd Hl Hr Pl Pi Ld As.
  destruct (finish_valid F Fs T lg cb hs M N' P of_u tag nbits gen fsqrt zeta apps zeta' code native H aff Hs aff' gens gens' Hgens Hhs HM H22 Haff bl cl cr R u l r pl id s d app h1 h2 ic oc cv steps Sp Bd Hl Hr Pl Pi Ld As)
    as (c & Ec & Ep & V).
  exists c. split; [exact Ec|]. split; [exact V|]. split.
  - exact (finish_sound _ _ _ _ _ _ _ _ _ _ _ _ _ _ _ _ _ _ _ _ _ _ _ _ _ _ _ _ _ _ _ _ _ _ _ _ _ _ _ _ _ _ _ _ _ _ B H aff Hs aff' gens gens' Hgens Hhs HM H22
      bl cl cr R u l r pl id s d app h1 h2 ic oc cv steps Sp Bd Pl Pi Ld As c Ep).
  - rewrite Ep. exact (finish_accepted _ _ _ _ _ _ _ _ _ _ _ _ _ _ _ _ _ _ _ _ _ _ _ _ _ _ _ _ _ _ _ _ _ _ _ _ _ _ _ _ _ _ _ _ _ _ B H aff Hs aff' heq gens gens' Hheq Hgens Hhs HM H22
      bl cl cr R u l r pl id s d app h1 h2 ic oc cv steps Sp Bd Hl Hr Pl Pi Ld As).
Qed.

(** The trivial proof is well formed, if the commitment of its constant polynomial over
    the other curve is not the identity. *)
Theorem C57_trivial : forall c, trivial = Some c -> (forall f, br_commitment (pf_bridge (fp_proof c) f) <> None) -> exists u, valid c u.
Proof.
  exact (trivial_valid _ _ _ _ _ _ _ _ _ _ _ _ _ _ _ _ _ _ _ _ _ _ _ _ _ _ _ _ _ _ _ _ _ _ _ _ _ _ _ _ _ _ _ _ _ _ B H Hs aff' gens gens' Hgens Hhs HM H22 Haff).
Qed.

(** How a run ends: between well-formed children nothing can be out of place, so it goes
    through unless a point it has to hash is the identity, or one of the challenges mu,
    mu' that it inverts is zero. The challenges are those of the transcript of the
    commitments, which lie on the curve. *)
Section Ends.
Hypothesis Hgens' : 4 * n <= length gens'.
Theorem C57_runs : forall (l r : fproof F Fs H) ul ur ol or bl, valid l ul -> valid r ur -> length ol = hs -> length or = hs ->
  match fuse l r ol or bl with
  | inl AtInfinity => (exists h, aff h = None) \/ (exists c, aff' c = None)
  | inl NoInverse => exists u, (forall f, exists c, aff' c = Some (uv_pt u f)) /\ transcript P (tag_values F of_u tag) u /\ (uv_el u Umu = f0 \/ uv_el u Umu' = f0)
  | inl Misfit => False
  | inr R => exists u, instance_of R u /\ (forall f, exists c, aff' c = Some (uv_pt u f)) /\ transcript P (tag_values F of_u tag) u
  end.
Proof.
  intros l r ul ur ol or bl Vl Vr Lol Lor.
  pose proof (run_good _ _ _ _ _ _ _ _ _ _ _ _ _ _ _ _ _ _ _ _ _ _ _ _ _ _ _ _ _ _ _ _ _ _ _ _ _ _ _ _ _ _ _ _ _ _ B H aff Hs aff' gens gens' Hgens Hgens' WP Hhs HM H22 SS SN GO Ev
    l r ul ur ol or bl Vl Vr Lol Lor) as G.
  pose proof (outcomes F Fs H Hs aff aff' T lg repr native gens gens' cb hs M N' P of_u tag nbits gen fsqrt zeta l r ol or bl) as O.
  destruct (fuse l r ol or bl) as [[ | | ]|R]; [exact O|exact O|exact G|exact O].
Qed.
(** The trivial proof can be made, and is well formed if the commitment of its constant
    polynomial over the other curve is not the identity. *)
Theorem C57_trivial_runs : exists c, trivial = Some c /\ ((forall h, aff' h <> None) -> exists u, valid c u).
Proof.
  destruct (trivial_some _ _ _ _ _ _ _ _ _ _ _ _ _ _ _ _ _ _ _ _ _ _ _ _ _ _ _ _ _ _ _ _ _ _ _ _ _ _ _ _ _ _ _ _ _ _ B H Hs aff' gens gens' Hgens Hgens' Hhs HM H22) as (c & E).
  exists c. split; [exact E|]. intros A. apply (C57_trivial c E). revert E. unfold trivial_proof.
  destruct (ones _) as [o|]; [|discriminate]. cbn [obind]. destruct (p_commit _ _ o); [|discriminate]. cbn [obind]. destruct (ones _) as [os|]; [|discriminate]. cbn [obind].
  destruct (p_commit _ _ os) as [cms|]; [|discriminate]. cbn [obind]. destruct (reg_xy _ _ _ _ _ _) as [q|]; [|discriminate]. cbn [obind]. destruct (p_commit _ _ q); [|discriminate]. cbn [obind].
  intros E f. injection E as <-. cbn [fp_proof pf_bridge br_commitment]. apply A.
Qed.
End Ends.

(** ** trees of proofs *)
(** the proofs an application can make, with their header: the trivial proof under the
    trivial header (suffix one, no data), and the fusion of two proofs, where both are
    fused themselves or both carry the trivial header *)
Inductive made : bool -> fproof F Fs H -> F -> list F -> Prop :=
| made_trivial c : trivial = Some c -> (forall f, br_commitment (pf_bridge (fp_proof c) f) <> None) -> made false c f1 []
| made_fused fl l sl dl fr r sr dr bl R u pl id s d app h1 h2 ic oc cv steps c :
    made fl l sl dl -> made fr r sr dr -> (fl = true /\ fr = true) \/ (sl = f1 /\ sr = f1) ->
    fuse l r (AppSpec.padded hs sl dl) (AppSpec.padded hs sr dr) bl = inr R -> ~ degenerate T l r R ->
    step_place (length apps) pl -> place_index (length apps) pl = Some (N.to_nat id) -> length d < hs ->
    instance_of R u -> assembled R u (code pl) (AppSpec.padded hs sl dl) (AppSpec.padded hs sr dr) (AppSpec.padded hs s d) app h1 h2 ic oc cv steps ->
    finish R id (AppSpec.padded hs sl dl) (AppSpec.padded hs sr dr) app h1 h2 ic oc cv steps = Some c ->
    made true c s d.
(** Every fused proof of such a tree, whatever its shape and depth, is accepted for its
    header at every challenge. *)
Theorem C57_made : forall f c s d, made f c s d ->
  (exists u, valid c u /\ (f = true -> sound c u (AppSpec.padded hs s d))) /\ length d < hs /\
  (f = true -> forall w y z y' z', verify (fp_proof c) (Some s) (Some d) w y z y' z' = Some true).
Proof.
  intros f c s d Md. induction Md as [c Ec Fin|fl l sl dl fr r sr dr bl R u pl id s d app h1 h2 ic oc cv steps c Ml IHl Mr IHr Ch Run Deg Pl Pi Ld In As Ec].
  - destruct (C57_trivial c Ec Fin) as (u & V). split; [exists u; split; [exact V|discriminate]|]. split; [exact Hhs|discriminate].
  - destruct IHl as ((ul & Vl & Sl) & Ll & _). destruct IHr as ((ur & Vr & Sr) & Lr & _).
    assert (Pll : length (AppSpec.padded hs sl dl) = hs) by now apply padded_len. assert (Plr : length (AppSpec.padded hs sr dr) = hs) by now apply padded_len.
    assert (Chi : is_base (shown T (fp_proof l) ul (AppSpec.padded hs sl dl)) (shown T (fp_proof r) ur (AppSpec.padded hs sr dr)) \/ (sound l ul (AppSpec.padded hs sl dl) /\ sound r ur (AppSpec.padded hs sr dr))).
    { destruct Ch as [[-> ->]|[-> ->]]; [right; auto|]. left. unfold is_base. cbn [shown pv_out]. unfold AppSpec.padded. now rewrite !app_assoc, !last_last. }
    destruct (C57_step l r ul ur _ _ bl R Vl Vr Pll Plr Run Deg Chi) as (u' & Sp & Bd & _).
    apply (assembled_unique F Fs T lg cb hs M N' P of_u tag nbits gen fsqrt zeta apps zeta' H R u u' _ _ _ _ _ _ _ _ _ _ _ In (sp_instance Sp)) in As.
    destruct (C57_fused l r bl _ _ R u' pl id s d app h1 h2 ic oc cv steps Sp Bd) as (c' & Ec' & V & So & Ac); auto.
    + split; [exact (vd_left Vl)|]. split; [exact (vd_right Vl)|exact Pll].
    + split; [exact (vd_left Vr)|]. split; [exact (vd_right Vr)|exact Plr].
    + cbn [shown pv_out] in Ec'. rewrite Ec in Ec'. assert (c' = c) as -> by congruence. split; [exists u'; auto|]. split; [exact Ld|auto].
Qed.
End Run.

(** ** the traces *)
Section Traces.
(* the host curve with its endomorphism *)
Variables (b' : Fs) (E : CurveGroup Fs F b' zeta' zeta) (Hs : FMod Fs) (aff' : Hs -> option (F * F)).
Local Notation H := (cg_mod _ _ _ _ _ E).
Local Notation aff := (cg_aff _ _ _ _ _ E).
Variables (gens : list H) (gens' : list Hs).
Hypothesis Hgens : 4 * n <= length gens.
Hypothesis two : (f1 + f1 : Fs)%F <> f0.
Hypothesis lam : (zeta * zeta + zeta + f1 : F)%F = f0.
Hypothesis order : forall m, 0 < m < (3 * 2 ^ (nbits / 2)) * (3 * 2 ^ (nbits / 2)) -> fnat m <> (f0 : F).
(** Passing traces exist for every run of the step's code between the headers, unless an
    addition of the endoscaled sum meets equal or opposite points. *)
Theorem C57_traces : forall (l r : fproof F Fs H) bl cl cr R u pl i res (alpha s : F) d,
  stepped T lg native gens cb hs M N' P of_u tag log2 nbits gen zeta bl cl cr R u -> bridged lg nbits zeta Hs aff aff' gens' bl l r R ->
  headers_of hs cl -> headers_of hs cr ->
  step_place (length apps) pl -> place_index (length apps) pl = Some i ->
  holds (code pl F f1) res -> map (ew F F) res = pv_out cl ++ pv_out cr ++ AppSpec.padded hs s d ->
  no_clash (lift_native F zeta nbits (fr_endo _ _ _ R)) (pw_initial (fr_points _ _ _ R)) (pw_inputs (fr_points _ _ _ R)) 0 36 ->
  exists app h1 h2 ic oc cv steps,
    assembled T lg cb hs M N' P of_u tag log2 nbits gen zeta fsqrt zeta' R u (code pl) (pv_out cl) (pv_out cr) (AppSpec.padded hs s d) app h1 h2 ic oc cv steps.
Proof.
  intros l r bl cl cr R u pl i res alpha s d Sp Bd Hl Hr Pl Pi Ho Er Nc.
  exact (run_traces _ _ _ _ _ _ _ _ _ _ _ _ _ _ _ _ _ _ _ _ _ _ _ _ _ _ _ _ _ _ _ _ _ _ _ _ _ _ _ _ _ _ _ _ _ _ B b' E Hs aff' gens gens' Hgens WP Hhs HM H22 SS SN GO Ev
    bl cl cr R u pl i res alpha s d l r Sp Hl Hr Pl Pi Ho Er two lam order Bd Nc).
Qed.
End Traces.
End C57.
Print Assumptions C57_step.
Print Assumptions C57_fused.
Print Assumptions C57_trivial.
Print Assumptions C57_made.
Print Assumptions C57_traces.
Print Assumptions C57_runs.
Print Assumptions C57_trivial_runs.
