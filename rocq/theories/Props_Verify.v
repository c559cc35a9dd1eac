(** C54, C55: the verifier.  What it checks, exactly; what a proof accepted at enough
    challenges proves; and which circuit such a proof names. *)
From Coq Require Import List Arith NArith Bool Lia Ring Field.
From Verif Require Import FieldDef ModDef ArithModel ArithSpec ArithProofs FFTModel FFTProofs SparseModel SparseSpec SparseProofs SparseProofs2 TModel TProofs
  FoldModel FoldSpec ClaimModel CircModel CircSpec SyModel SProofs TraceModel CircProofs CircProofs2 SyProofs SyProofs2 SatProofs GadgetModel GadgetSpec SpongeModel SpongeSpec StageModel StageSpec StageProofs RegModel RegSpec RegProofs RegProofs2
  EndoSpec PcdModel PcdSpec PcdProofs2 RecModel RecSpec CompileModel CompileSpec CompileSpec2 CompileProofs CompileProofs2 RecStageModel RecStageSpec RecStageProofs
  AppModel AppSpec AppProofs Props_Reg Props_Stage Props_App Props_Comp Props_Rec Props_Step
  VerifyModel VerifySpec VerifySpec2 VerifyProofs VerifyProofs2 VerifyProofs3 VerifyProofs4 VerifyProofs5 VerifyProofs6 VerifyProofs7 VerifyProofs8 VerifyProofs9 VerifyProofs10.
Import ListNotations.
Open Scope f_scope.
Local Open Scope nat_scope.

Section C54.
Variables (F Fs : Field) (T : TwoAdic F) (Ts : TwoAdic Fs) (lg : nat).
Add Field FF54 : (f_theory F).
Variables (repr : F -> N) (reprs : Fs -> N).
Variables (hash : list N -> list N) (to_bytes : F -> list N) (from_uniform : list N -> F) (f_of_u64 : N -> F).
Variables (hash' : list N -> list N) (to_bytes' : Fs -> list N) (from_uniform' : list N -> Fs) (f_of_u64' : N -> Fs).
Variables (x0 x1 x2 x3 yc onec hc : F) (cb : F) (hs M N' : nat) (P : pparams F) (of_u : N -> F) (tag : list N)
  (nbits : nat) (gen : F) (fsqrt : F -> option F) (zeta : F).
Variables (l : list (step F)) (sobj : istep -> option (cobj F)) (nsteps : nat) (nobj : ncid -> option (cobj Fs)).
Variable code : place -> circuit F.
Variables (native : registry F) (nested : registry Fs).
Hypothesis B : built F Fs T Ts lg repr reprs hash to_bytes from_uniform f_of_u64 hash' to_bytes' from_uniform' f_of_u64'
  x0 x1 x2 x3 yc onec hc cb hs M N' P of_u tag nbits gen fsqrt zeta l sobj nsteps nobj code native nested.
Hypothesis Hst : 0 < nsteps.
Local Notation log2 := (Nat.log2_up (length l + 15)).
Local Notation n := (2 ^ lg).
(* the host curve: its generators, and equality of its points *)
Variables (H : FMod F) (heq : H -> H -> bool) (gens : list H).
Hypothesis Hheq : forall a b : H, heq a b = true <-> a = b.
Hypothesis Hgens : 4 * n <= length gens.
Local Notation verify := (verify T Ts lg repr reprs heq gens cb hs nsteps native nested).
Local Notation slot := (syr F T lg repr native).
Local Notation slot' := (syr Fs Ts lg reprs nested).

Lemma place_range pl i : step_place (length l) pl -> place_index (length l) pl = Some i -> 13 <= i < length l + 15.
Proof.
  destruct pl as [id|st|j]; cbn [step_place place_index step_circuit_index]; [tauto| |].
  - intros _ E. injection E as <-. unfold NUM_INTERNAL_CIRCUITS. destruct st; cbn; lia.
  - intros Hj. destruct (Nat.leb_spec (length l) j); [discriminate|]. unfold circuit_index_new. destruct (N.ltb _ _); [|discriminate].
    intros E. injection E as <-. unfold NUM_INTERNAL_STEPS, NUM_INTERNAL_CIRCUITS. lia.
Qed.
Lemma place_inj pl pl' i : step_place (length l) pl -> step_place (length l) pl' -> place_index (length l) pl = Some i -> place_index (length l) pl' = Some i -> pl = pl'.
Proof.
  destruct pl as [id|st|j], pl' as [id'|st'|j']; cbn [step_place place_index step_circuit_index]; try tauto; intros Hj Hj'; unfold circuit_index_new, NUM_INTERNAL_CIRCUITS, NUM_INTERNAL_STEPS.
  - intros E E'. assert (istep_num st = istep_num st') by (injection E as <-; injection E'; lia). destruct st, st'; try reflexivity; discriminate.
  - destruct (_ <=? _); [discriminate|]. destruct (N.ltb _ _); [|discriminate]. intros E E'. injection E as <-. injection E'. destruct st; cbn; lia.
  - destruct (_ <=? _); [discriminate|]. destruct (N.ltb _ _); [|discriminate]. intros E E'. injection E as <-. injection E'. destruct st'; cbn; lia.
  - destruct (_ <=? j); [discriminate|]. destruct (N.ltb _ _); [|discriminate]. destruct (_ <=? j'); [discriminate|]. destruct (N.ltb _ _); [|discriminate].
    intros E E'. injection E as <-. injection E' as E'. f_equal. lia.
Qed.
Lemma in_domain i : i < 2 ^ ta_S T -> circuit_in_domain F T native (N.of_nat i) = true <-> i < 2 ^ log2.
Proof.
  destruct (native_builder _ _ _ _ _ _ _ _ _ _ _ _ _ _ _ _ _ _ _ _ _ _ _ _ _ _ _ _ _ _ _ _ _ _ _ _ _ _ _ _ B) as (nb & Ef & Lg & Lo & _).
  destruct (bl_two _ _ _ _ _ _ _ _ _ _ _ _ _ _ _ _ _ _ _ _ _ _ _ _ _ _ _ _ _ _ _ _ _ _ _ _ _ _ _ _ B) as [S32 _].
  pose proof (bl_key _ _ _ _ _ _ _ _ _ _ _ _ _ _ _ _ _ _ _ _ _ _ _ _ _ _ _ _ _ _ _ _ _ _ _ _ _ _ _ _ B) as K.
  pose proof (C22_identifiers F T lg repr hash to_bytes from_uniform f_of_u64 nb native S32 Ef) as X. cbv zeta in X. fold (reg_order nb) in X. rewrite Lo in X.
  destruct (X K) as (_ & _ & D & _). exact (D i).
Qed.
(** the slots of the two registries and the registry polynomial can be evaluated *)
Lemma slots_ok : (forall i y, i < 2 ^ log2 -> circuit_y F T lg repr native (N.of_nat i) y = Some (slot y i) /\ wf 0 (4 * n) (slot y i)) /\
  (forall i y, i < nsteps + 11 -> circuit_y Fs Ts lg reprs nested (N.of_nat i) y = Some (slot' y i) /\ wf 0 (4 * n) (slot' y i)) /\
  forall x y, exists q, reg_xy F 1 lg native x y = Some q /\ wf 0 (4 * n) q /\ forall w, reg_wxy F lg repr native w x y = Some (p_eval (4 * n) q w).
Proof.
  destruct (native_builder _ _ _ _ _ _ _ _ _ _ _ _ _ _ _ _ _ _ _ _ _ _ _ _ _ _ _ _ _ _ _ _ _ _ _ _ _ _ _ _ B) as (nb & Ef & Lg & Lo & _ & _ & Fo).
  destruct (nested_builder _ _ _ _ _ _ _ _ _ _ _ _ _ _ _ _ _ _ _ _ _ _ _ _ _ _ _ _ _ _ _ _ _ _ _ _ _ _ _ _ B) as (sb & Ef' & Lg' & Lo' & _ & Fo').
  destruct (bl_two _ _ _ _ _ _ _ _ _ _ _ _ _ _ _ _ _ _ _ _ _ _ _ _ _ _ _ _ _ _ _ _ _ _ _ _ _ _ _ _ B) as [S32 S32'].
  pose proof (bl_key _ _ _ _ _ _ _ _ _ _ _ _ _ _ _ _ _ _ _ _ _ _ _ _ _ _ _ _ _ _ _ _ _ _ _ _ _ _ _ _ B) as K.
  pose proof (bl_key' _ _ _ _ _ _ _ _ _ _ _ _ _ _ _ _ _ _ _ _ _ _ _ _ _ _ _ _ _ _ _ _ _ _ _ _ _ _ _ _ B) as K'.
  rewrite <- Lg in K |- *. rewrite <- Lg' in K'. split; [|split].
  - intros i y Hi. exact (slot_wf F T lg repr hash to_bytes from_uniform f_of_u64 nb native S32 Ef K Fo i y Hi).
  - intros i y Hi. apply (slot_wf Fs Ts lg reprs hash' to_bytes' from_uniform' f_of_u64' sb nested S32' Ef' K' Fo' i y).
    eapply Nat.lt_le_trans; [exact Hi|]. rewrite <- Lo'. apply (log2_fits Fs sb).
  - intros x y. assert (X : exists ss, Forall2 (obj_is lg) (reg_order nb) ss).
    { clear -Fo. induction Fo as [|o os (s & Hs) _ (ss & IH)]; [exists []; constructor|]. exists (s :: ss). now constructor. }
    destruct X as (ss & Hss). assert (Ls : length ss = length l + 15) by (rewrite <- Lo; symmetry; exact (forall2_length _ _ _ Hss)).
    pose proof (C21_registry F T 1 lg repr hash to_bytes from_uniform f_of_u64 nb native ss S32 (le_n 1) Ef Hss) as Y. cbv zeta in Y. rewrite Ls in Y. rewrite Lg in K.
    destruct (Y K x y) as (PP & _ & _ & V & _). destruct (V f0) as (_ & _ & _ & q & Eq & Wq & _). exists q. split; [exact Eq|]. split; [exact Wq|].
    intros w. destruct (V w) as (Ew & _ & _ & q' & Eq' & _ & Ev). rewrite Eq in Eq'. injection Eq' as <-. rewrite Ew. f_equal. symmetry. exact Ev.
Qed.

Lemma exact_slots (p : proof F Fs H) sfx data w y z y' z' : wf_proof n p -> N.to_nat (pf_circuit_id p) < 2 ^ ta_S T ->
  exists m, reg_wxy F lg repr native w (pf_chal p Ch_x) (pf_chal p Ch_y) = Some m /\
    (verify p sfx data w y z y' z' = Some true <->
     N.to_nat (pf_circuit_id p) < 2 ^ log2 /\
     exists s d u, sfx = Some s /\ data = Some d /\ verified T n hs nsteps gens (slot y) (slot' y') m p s d u w y z z').
Proof.
  intros Wp Hc. destruct slots_ok as (Sl & Sl' & Sx).
  destruct (Sx (pf_chal p Ch_x) (pf_chal p Ch_y)) as (q & _ & _ & Ew).
  exists (p_eval (4 * n) q w). split; [apply Ew|].
  pose proof (in_domain _ Hc) as D. rewrite N2Nat.id in D. rewrite <- D.
  apply exact_ok; auto.
  - exact (bl_count _ _ _ _ _ _ _ _ _ _ _ _ _ _ _ _ _ _ _ _ _ _ _ _ _ _ _ _ _ _ _ _ _ _ _ _ _ _ _ _ B).
  - intros i Hi. apply Sl. eapply Nat.lt_le_trans with (m := length l + 15); [lia|]. pose proof (Nat.log2_log2_up_spec (length l + 15)). lia.
  - intros Hd. rewrite <- (N2Nat.id (pf_circuit_id p)) at 1. apply Sl. now apply D.
Qed.
(** The verifier accepts exactly the proofs that name a circuit of the domain, whose
    header encodes, whose points are all finite and whose claims all hold, for the
    wiring polynomials of the registries: native and nested sums over coefficients,
    the opening and the commitment of p, and the value of the registry polynomial. *)
Theorem C54_exact : forall (p : proof F Fs H) sfx data w y z y' z',
  wf_proof n p -> N.to_nat (pf_circuit_id p) < 2 ^ ta_S T ->
  exists (sy : nat -> poly F) (sy' : nat -> poly Fs) m,
    (forall i, i < 2 ^ log2 -> circuit_y F T lg repr native (N.of_nat i) y = Some (sy i)) /\
    (forall i, i < nsteps + 11 -> circuit_y Fs Ts lg reprs nested (N.of_nat i) y' = Some (sy' i)) /\
    reg_wxy F lg repr native w (pf_chal p Ch_x) (pf_chal p Ch_y) = Some m /\
    (verify p sfx data w y z y' z' = Some true <->
     N.to_nat (pf_circuit_id p) < 2 ^ log2 /\
     exists s d u, sfx = Some s /\ data = Some d /\ verified T n hs nsteps gens sy sy' m p s d u w y z z').
Proof.
  intros p sfx data w y z y' z' Wp Hc. destruct slots_ok as (Sl & Sl' & _).
  destruct (exact_slots p sfx data w y z y' z' Wp Hc) as (m & Em & E).
  exists (slot y), (slot' y'), m. split; [intros i Hi; now apply Sl|]. split; [intros i Hi; now apply Sl'|]. split; [exact Em|exact E].
Qed.

(** the verifier accepts [p] with header data at 4n values of y, for each of them at
    4n values of z, whatever the other challenges *)
Definition often (p : proof F Fs H) sfx data (ys : list F) : Prop :=
  NoDup ys /\ 4 * n <= length ys /\
  forall y, In y ys -> exists zs, NoDup zs /\ 4 * n <= length zs /\ forall z, In z zs -> exists w y' z', verify p sfx data w y z y' z' = Some true.

Lemma often_claims p sfx data ys : wf_proof n p -> N.to_nat (pf_circuit_id p) < 2 ^ ta_S T -> often p sfx data ys ->
  N.to_nat (pf_circuit_id p) < 2 ^ log2 /\ exists s d u, sfx = Some s /\ data = Some d /\ length d < hs /\ published p u /\
    length (pf_left_header p) = hs /\ length (pf_right_header p) = hs /\
    fsum (4 * n) (fun k => fmul (coeff_at (pf_p p) k) (fpow (pf_chal p Ch_u) k)) = pf_v p /\
    msum (4 * n) (fun k => mscale (coeff_at (pf_p p) k) (nth k gens m0)) = pf_p_commitment p /\
    forall y, In y ys -> exists zs, NoDup zs /\ 4 * n <= length zs /\ forall z, In z zs ->
      let v := view_of p (child_k (shown T p u (AppSpec.padded hs s d)) y) in Forall (claim_holds n z (slot y)) (own_claims v ++ bond_claims f0 [v]).
Proof.
  intros Wp Hc (Nd & Ly & Hv). assert (Hn : 0 < n) by (pose proof (Nat.pow_nonzero 2 lg); lia).
  assert (X : forall w y z y' z', verify p sfx data w y z y' z' = Some true -> N.to_nat (pf_circuit_id p) < 2 ^ log2 /\
    exists s d u m, sfx = Some s /\ data = Some d /\ verified T n hs nsteps gens (slot y) (slot' y') m p s d u w y z z').
  { intros w y z y' z' V. destruct (exact_slots p sfx data w y z y' z' Wp Hc) as (m & _ & I).
    apply I in V. destruct V as (V1 & s & d & u & E3 & E4 & V). split; [exact V1|]. now exists s, d, u, m. }
  destruct ys as [|y0 ys'] eqn:Ey; [cbn in Ly; lia|]. rewrite <- Ey in *.
  destruct (Hv y0 ltac:(rewrite Ey; now left)) as ([|z0 zs0] & _ & Lz & Hz); [cbn in Lz; lia|].
  destruct (Hz z0 (or_introl eq_refl)) as (w0 & y0' & z0' & V0). destruct (X _ _ _ _ _ V0) as (Hd & s & d & u & m & Es & Ed & V).
  split; [exact Hd|]. exists s, d, u. destruct V as [A1 A2 A3 A4 _ _ _ A8 A9 _]. repeat (split; [assumption|]).
  intros y Iy. destruct (Hv y Iy) as (zs & Nz & Lz' & Hz'). exists zs. split; [exact Nz|]. split; [exact Lz'|]. intros z Iz.
  destruct (Hz' z Iz) as (w & y' & z' & V'). destruct (X _ _ _ _ _ V') as (_ & s1 & d1 & u1 & m1 & Es1 & Ed1 & V1).
  rewrite Es in Es1. rewrite Ed in Ed1. injection Es1 as <-. injection Ed1 as <-.
  pose proof (published_unique F Fs H p u u1 A4 (vf_published _ _ _ _ _ _ _ _ _ _ _ _ _ _ _ _ _ _ _ V1)) as Eu.
  pose proof (vf_native _ _ _ _ _ _ _ _ _ _ _ _ _ _ _ _ _ _ _ V1) as V2. cbv zeta in V2 |- *.
  assert (EK : child_k (shown T p u (AppSpec.padded hs s d)) y = child_k (shown T p u1 (AppSpec.padded hs s d)) y).
  { unfold child_k, shown. cbn [pv_uni pv_left pv_right pv_out]. now rewrite Eu. }
  rewrite EK. exact V2.
Qed.

Section Sound.
Variables (p : proof F Fs H) (sfx : option F) (data : option (list F)) (ys : list F).
Hypothesis Wp : wf_proof n p.
Hypothesis Hc : N.to_nat (pf_circuit_id p) < 2 ^ ta_S T.
Hypothesis Hv : often p sfx data ys.

(** the named circuit, with its registered object *)
Lemma named : sfx <> Some f0 -> exists pl nb, finalize F T lg repr hash to_bytes from_uniform f_of_u64 nb = Some native /\
  step_place (length l) pl /\ place_index (length l) pl = Some (N.to_nat (pf_circuit_id p)) /\
  nth_error (reg_order nb) (N.to_nat (pf_circuit_id p)) = place_obj l (iobj F T lg x0 x1 x2 x3 yc onec hc cb hs M N' P of_u tag nbits gen fsqrt zeta log2) sobj pl /\
  log2_circuits F nb = log2 /\ N.to_nat (pf_circuit_id p) < length (reg_order nb) /\
  (forall id, exists o, iobj F T lg x0 x1 x2 x3 yc onec hc cb hs M N' P of_u tag nbits gen fsqrt zeta log2 id = Some o /\ nth_error (reg_order nb) (internal_index id) = Some o).
Proof.
  intros Hs. destruct (often_claims p sfx data ys Wp Hc Hv) as (Hd & s & d & u & Es & Ed & Ld & Pu & L1 & L2 & _ & _ & Cl).
  destruct Hv as (Nd & Ly & _).
  destruct (native_builder _ _ _ _ _ _ _ _ _ _ _ _ _ _ _ _ _ _ _ _ _ _ _ _ _ _ _ _ _ _ _ _ _ _ _ _ _ _ _ _ B) as (nb & Ef & Lg & Lo & Sl & St & Fo).
  destruct (bl_two _ _ _ _ _ _ _ _ _ _ _ _ _ _ _ _ _ _ _ _ _ _ _ _ _ _ _ _ _ _ _ _ _ _ _ _ _ _ _ _ B) as [S32 _].
  pose proof (bl_key _ _ _ _ _ _ _ _ _ _ _ _ _ _ _ _ _ _ _ _ _ _ _ _ _ _ _ _ _ _ _ _ _ _ _ _ _ _ _ _ B) as K. rewrite <- Lg in K.
  assert (X : 13 <= N.to_nat (pf_circuit_id p) < length (reg_order nb)).
  { apply (names_step F T lg repr hash to_bytes from_uniform f_of_u64 S32 nb native Ef K x0 x1 x2 x3 yc onec hc cb hs M N' P of_u tag nbits gen fsqrt zeta log2 Sl
      Fs H p u (d ++ repeat f0 (hs - 1 - length d)) s ys (proj1 Wp) Nd Ly); auto.
    - intros y Iy. destruct (Cl y Iy) as (zs & A & A' & C). exists zs. split; [exact A|]. split; [exact A'|]. intros z Iz.
      specialize (C z Iz). unfold AppSpec.padded in C. rewrite <- app_assoc. exact C.
    - rewrite !app_length, repeat_length. cbn [length]. lia.
    - rewrite Lg. exact Hd.
    - congruence. }
  pose proof X as X'. rewrite Lo in X'. destruct (St _ X') as (pl & A & A' & A''). exists pl, nb. repeat (split; [assumption|]). split; [apply X|exact Sl].
Qed.

(** Given a header suffix that is not the one of the internal circuits, an accepted
    proof names the circuit of a step: not an internal circuit, a stage, or an empty
    slot of the domain. *)
Theorem C55_names_step : sfx <> Some f0 ->
  exists pl, step_place (length l) pl /\ place_index (length l) pl = Some (N.to_nat (pf_circuit_id p)).
Proof. intros Hs. destruct (named Hs) as (pl & nb & _ & A & A' & _). now exists pl. Qed.

(** A proof accepted at enough challenges shows, for the header it claims: a run of the
    code of the step it names, between its children's headers and that header; the
    recursion step over its children; its folded claim, its opening and its commitment. *)
Theorem C54_sound : wf_params P -> 0 < hs -> 22 <= M * N' ->
  (forall v s : F, fsqrt v = Some s -> (s * s)%F = v) -> (forall v : F, fsqrt v = None -> ~ square v) -> (forall v : F, square v \/ square (gen * v)%F) ->
  sfx <> Some f0 ->
  exists s d u, sfx = Some s /\ data = Some d /\ length d < hs /\ published p u /\
    (* a run of the step the proof names, on its headers *)
    (exists pl res, step_place (length l) pl /\ place_index (length l) pl = Some (N.to_nat (pf_circuit_id p)) /\
       holds (code pl F f1) res /\ map (ew F F) res = pf_left_header p ++ pf_right_header p ++ AppSpec.padded hs s d) /\
    (* the recursion step, on children with the proof's left and right headers as outputs *)
    (exists cl cr oe ie q e u', carried F P hs M N' n (pf_preamble p) (pf_outer_error p) (pf_inner_error p) (pf_query p) (pf_eval p) cl cr oe ie q e /\
       headers_of hs cl /\ headers_of hs cr /\ pv_out cl = pf_left_header p /\ pv_out cr = pf_right_header p /\ u_write u' = u_write u /\
       transcript_1 P (tag_values F of_u tag) u' (ov_sponge oe) /\
       step_rel false P (tag_values F of_u tag) log2 cb lg M N' nbits gen zeta (internal_omega T) cl cr oe ie q e u') /\
    (* its own folded claim, its opening, its commitment *)
    fsum (4 * n) (fun k => (coeff_at (pf_a p) k * coeff_at (pf_b p) (4 * n - 1 - k))%F) = pf_c p /\
    fsum (4 * n) (fun k => (coeff_at (pf_p p) k * fpow (pf_chal p Ch_u) k)%F) = pf_v p /\
    msum (4 * n) (fun k => mscale (coeff_at (pf_p p) k) (nth k gens m0)) = pf_p_commitment p.
Proof.
  intros WP Hhs H22 S1 S2 S3 Hs.
  destruct (named Hs) as (pl & nb & Ef & Pl & Pi & Po & Lg & Li & Sl).
  destruct (often_claims p sfx data ys Wp Hc Hv) as (Hd & s & d & u & Es & Ed & Ld & Pu & L1 & L2 & Ev & Ec & Cl).
  destruct Hv as (Nd & Ly & _). assert (Hn : 0 < n) by (pose proof (Nat.pow_nonzero 2 lg); lia).
  destruct (bl_two _ _ _ _ _ _ _ _ _ _ _ _ _ _ _ _ _ _ _ _ _ _ _ _ _ _ _ _ _ _ _ _ _ _ _ _ _ _ _ _ B) as [S32 _].
  pose proof (bl_key _ _ _ _ _ _ _ _ _ _ _ _ _ _ _ _ _ _ _ _ _ _ _ _ _ _ _ _ _ _ _ _ _ _ _ _ _ _ _ _ B) as K. rewrite <- Lg in K.
  exists s, d, u. repeat (split; [assumption|]). split; [|split; [|split; [|split; assumption]]].
  - destruct (bl_step _ _ _ _ _ _ _ _ _ _ _ _ _ _ _ _ _ _ _ _ _ _ _ _ _ _ _ _ _ _ _ _ _ _ _ _ _ _ _ _ B pl Pl) as (G & outs & Eo & Lou & Ep).
    destruct (nth_error (reg_order nb) (N.to_nat (pf_circuit_id p))) as [o|] eqn:En; [|apply nth_error_None in En; lia].
    assert (LL : length (pf_left_header p ++ pf_right_header p ++ AppSpec.padded hs s d) = length outs).
    { unfold AppSpec.padded. rewrite Lou, !app_length, L1, L2, repeat_length. cbn [length]. lia. }
    assert (Eo' : prog_cobj x0 x1 x2 x3 yc onec hc lg (cbody (code pl)) outs = Some o) by congruence.
    destruct (circuit_owned (code pl) outs G Eo) as [Ow _].
    destruct (circ_slot F T lg repr hash to_bytes from_uniform f_of_u64 S32 nb native Ef K x0 x1 x2 x3 yc onec hc _ o _ outs En Eo' Ow) as [Fi _].
    pose proof (app_accepted F T lg repr hash to_bytes from_uniform f_of_u64 S32 nb native Ef K x0 x1 x2 x3 yc onec hc
      Fs H p u (AppSpec.padded hs s d) ys (proj1 Wp) Nd Ly Cl o (cbody (code pl)) outs En Eo' Ow LL) as Ac.
    destruct (C51_sound F n (code pl) outs _ (pf_application p) ys G Eo Fi LL (proj1 Wp (Rx RxApplication)) Nd Ly Ac) as (res & Hr & Er).
    exists pl, res. auto.
  - pose proof (native_step F T lg repr hash to_bytes from_uniform f_of_u64 S32 nb native Ef K x0 x1 x2 x3 yc onec hc cb hs M N' P of_u tag nbits gen fsqrt zeta log2 Sl
      Fs H p u (AppSpec.padded hs s d) ys (proj1 Wp) Nd Ly Cl L1 L2 Hn) as A.
    destruct (C53_sound F P cb of_u tag log2 hs lg M N' nbits gen fsqrt zeta (internal_omega T) WP n (u_write u) _ _ ys _ _ _ _ _ Hhs H22 (eq_refl (length (u_write u))) L1 L2 S1 S2 S3 Nd Ly A)
      as (cl & cr & oe & ie & q & e & u' & X1 & X2 & X3 & _ & _ & X4 & X5 & X6 & X7 & X8).
    exists cl, cr, oe, ie, q, e, u'. repeat (split; [assumption|]). assumption.
  - exact (raw_claim F T lg repr S32 nb native Fs H p u (AppSpec.padded hs s d) ys Nd Ly Cl).
Qed.
End Sound.

(** At enough values of w, the registry polynomial of an accepted proof is that of the
    application, at the proof's x and y; at the point of a circuit it is that circuit's
    wiring polynomial. *)
Theorem C54_registry : forall (p : proof F Fs H) sfx data ws,
  wf_proof n p -> N.to_nat (pf_circuit_id p) < 2 ^ ta_S T -> NoDup ws -> 4 * n <= length ws ->
  (forall w, In w ws -> exists y z y' z', verify p sfx data w y z y' z' = Some true) ->
  exists q, reg_xy F 1 lg native (pf_chal p Ch_x) (pf_chal p Ch_y) = Some q /\ (forall e, coeff_at (pf_registry_xy p) e = coeff_at q e) /\
    forall i, i < 2 ^ log2 -> circuit_xy F T lg repr native (N.of_nat i) (pf_chal p Ch_x) (pf_chal p Ch_y) = Some (p_eval (4 * n) (pf_registry_xy p) (omega_j T (N.of_nat i))).
Proof.
  intros p sfx data ws Wp Hc Nd Lw Hw. destruct slots_ok as (_ & _ & Sx).
  destruct (Sx (pf_chal p Ch_x) (pf_chal p Ch_y)) as (q & Eq & Wq & Ew). exists q. split; [exact Eq|].
  pose proof (proj1 (proj2 (proj2 Wp))) as Wr.
  assert (C : forall e, coeff_at (pf_registry_xy p) e = coeff_at q e).
  { intros e. destruct (Nat.lt_ge_cases e (4 * n)) as [L|L].
    - pose proof (coeffs_zero F (4 * n) (fun e => (coeff_at (pf_registry_xy p) e - coeff_at q e)%F) ws Nd Lw) as Z. cbv beta in Z.
      assert (X : (coeff_at (pf_registry_xy p) e - coeff_at q e)%F = f0).
      { apply Z; [|exact L]. intros w Iw. destruct (Hw w Iw) as (y & z & y' & z' & V).
        destruct (exact_slots p sfx data w y z y' z' Wp Hc) as (m & Em & I). apply I in V. destruct V as (_ & s & d & u & _ & _ & V).
        pose proof (vf_registry _ _ _ _ _ _ _ _ _ _ _ _ _ _ _ _ _ _ _ V) as V'. rewrite Ew in Em. assert (m = p_eval (4 * n) q w) as -> by congruence. rewrite SparseProofs.eval_ok in V' by exact Wq.
        rewrite (fsum_ext F (4 * n) _ (fun k => coeff_at (pf_registry_xy p) k * fpow w k + (- f1) * (coeff_at q k * fpow w k))%F) by (intros; ring).
        rewrite fsum_add, fsum_scale, V'. ring. }
      replace (coeff_at (pf_registry_xy p) e) with ((coeff_at (pf_registry_xy p) e - coeff_at q e) + coeff_at q e)%F by ring. rewrite X. ring.
    - now rewrite (SparseProofs.coeff_high F _ _ _ e Wr L), (SparseProofs.coeff_high F _ _ _ e Wq L). }
  split; [exact C|]. intros i _. unfold circuit_xy. rewrite Ew. f_equal. rewrite !SparseProofs.eval_ok by assumption. apply fsum_ext. intros e _. now rewrite C.
Qed.

(** ** completeness *)
(** Polynomials passing all checks of their circuits make a proof that the verifier
    accepts at every challenge. *)
Lemma accepts_traces (p : proof F Fs H) s d u pl outs r1 r2 r3 r4 r5 :
  wf_proof n p -> N.to_nat (pf_circuit_id p) < 2 ^ ta_S T ->
  length (pf_left_header p) = hs -> length (pf_right_header p) = hs -> length d < hs -> published p u ->
  step_place (length l) pl -> place_index (length l) pl = Some (N.to_nat (pf_circuit_id p)) -> couts (code pl) = Some outs ->
  (forall y z, passes F n (pf_application p) (cbody (code pl)) outs (pf_left_header p ++ pf_right_header p ++ AppSpec.padded hs s d) y z) ->
  opens n gens (reg_xy F 1 lg native) p -> nested_honest n nsteps (fun i y => circuit_y Fs Ts lg reprs nested (N.of_nat i) y) p ->
  (forall i, coeff_at (native_rx p (Rx i)) 0 = f0) ->
  stage_passes n [pre_wires hs] 0 (pf_preamble p) -> stage_passes n [pre_wires hs; oe_wires N' (pp_T P)] 1 (pf_outer_error p) ->
  stage_passes n [pre_wires hs; oe_wires N' (pp_T P); ie_wires M N'] 2 (pf_inner_error p) ->
  stage_passes n [pre_wires hs; query_wires] 1 (pf_query p) -> stage_passes n [pre_wires hs; query_wires; eval_wires] 2 (pf_eval p) ->
  multi_passes n (hashes_stages F hs N' P) (s_hashes_1 F cb hs N' P of_u tag log2) (u_write u ++ pf_left_header p ++ pf_right_header p ++ [f0]) (pf_hashes_1 p) r1 [pf_preamble p; pf_outer_error p] ->
  multi_passes n (hashes_stages F hs N' P) (s_hashes_2 F cb N' P) (u_write u ++ [f0]) (pf_hashes_2 p) r2 [[]; pf_outer_error p] ->
  multi_passes n (inner_stages F hs M N' P) (s_inner F cb hs M N' P) (u_write u ++ [f0]) (pf_inner_collapse p) r3 [pf_preamble p; pf_outer_error p; pf_inner_error p] ->
  multi_passes n (hashes_stages F hs N' P) (s_outer F cb hs N' P) (u_write u ++ [f0]) (pf_outer_collapse p) r4 [pf_preamble p; pf_outer_error p] ->
  multi_passes n (v_stages hs) (s_compute_v F cb hs M N' lg nbits gen fsqrt zeta (internal_omega T)) (u_write u ++ [f0]) (pf_compute_v p) r5 [pf_preamble p; pf_query p; pf_eval p] ->
  forall w y z y' z', verify p (Some s) (Some d) w y z y' z' = Some true.
Proof.
  intros Wp Hc L1 L2 Ld Pu Pl Pi Eo App (Raw & Op & Cm & qx & Ex & Cx) (Ls & Hne) C0 P1 P2 P3 P4 P5 M1 M2 M3 M4 M5 w y z y' z'.
  destruct (native_builder _ _ _ _ _ _ _ _ _ _ _ _ _ _ _ _ _ _ _ _ _ _ _ _ _ _ _ _ _ _ _ _ _ _ _ _ _ _ _ _ B) as (nb & Ef & Lg & Lo & Sl & St & Fo).
  destruct (bl_two _ _ _ _ _ _ _ _ _ _ _ _ _ _ _ _ _ _ _ _ _ _ _ _ _ _ _ _ _ _ _ _ _ _ _ _ _ _ _ _ B) as [S32 _].
  pose proof (bl_key _ _ _ _ _ _ _ _ _ _ _ _ _ _ _ _ _ _ _ _ _ _ _ _ _ _ _ _ _ _ _ _ _ _ _ _ _ _ _ _ B) as K. rewrite <- Lg in K.
  destruct (exact_slots p (Some s) (Some d) w y z y' z' Wp Hc) as (m & Em & E). apply E. clear E.
  pose proof (place_range _ _ Pl Pi) as Ri. split.
  { eapply Nat.lt_le_trans with (m := length l + 15); [lia|]. pose proof (Nat.log2_log2_up_spec (length l + 15)). lia. }
  exists s, d, u. split; [reflexivity|]. split; [reflexivity|].
  destruct slots_ok as (_ & Sl' & Sx). destruct (Sx (pf_chal p Ch_x) (pf_chal p Ch_y)) as (q & Eq & Wq & Ew). rewrite Ex in Eq. injection Eq as ->.
  constructor; auto.
  - destruct (St _ Ri) as (pl' & Pl' & Pi' & Eo').
    assert (pl' = pl) as -> by (apply (place_inj pl' pl _ Pl' Pl Pi' Pi)).
    destruct (bl_step _ _ _ _ _ _ _ _ _ _ _ _ _ _ _ _ _ _ _ _ _ _ _ _ _ _ _ _ _ _ _ _ _ _ _ _ _ _ _ _ B pl Pl) as (G & outs' & Eo1 & Lou & Ep).
    rewrite Eo in Eo1. injection Eo1 as <-.
    destruct (nth_error (reg_order nb) (N.to_nat (pf_circuit_id p))) as [o|] eqn:En; [|apply nth_error_None in En; lia].
    destruct (circuit_owned (code pl) outs G Eo) as [Ow _].
    apply (native_complete F T lg repr hash to_bytes from_uniform f_of_u64 S32 nb native Ef K x0 x1 x2 x3 yc onec hc cb hs M N' P of_u tag nbits gen fsqrt zeta log2 Sl
      Fs H p (proj1 Wp) C0 u (AppSpec.padded hs s d) o (cbody (code pl)) outs En) with (r1 := r1) (r2 := r2) (r3 := r3) (r4 := r4) (r5 := r5); auto. congruence.
  - apply (Hne y'). intros i Hi. now apply Sl'.
  - rewrite Ew in Em. assert (m = p_eval (4 * n) q w) as -> by congruence. rewrite SparseProofs.eval_ok by exact Wq. apply fsum_ext. intros e _. now rewrite Cx.
Qed.

(** the stages of an honest proof vanish at degree zero *)
Lemma stage_zero parents v alpha out (q : poly F) : 0 < n -> stage_rx n parents v alpha out = Some q -> coeff_at q 0 = f0.
Proof.
  intros Hn E. pose proof (StageProofs2.stage_rx_ok F n parents v alpha out) as X. cbv zeta in X.
  destruct ((length out <=? v) && _)%bool; [|congruence]. destruct X as (q' & E' & _ & a & b & c & d & C & Z). rewrite E in E'. injection E' as <-.
  rewrite C. unfold trace_coeff. destruct (Nat.ltb_spec 0 n); [|lia]. apply Z.
Qed.

(** Completeness: whatever the step's run between the headers, the recursion step
    with the children's headers, and the blinds, there are traces that make any proof
    whose openings and nested claims hold acceptable at every challenge. *)
Theorem C54_complete : forall (p0 : proof F Fs H) s d u pl res cl cr oe ie q e (alpha a1 a2 a3 a4 a5 : F),
  wf_params P -> 0 < hs -> 22 <= M * N' ->
  (forall v s : F, fsqrt v = Some s -> (s * s)%F = v) -> (forall v : F, fsqrt v = None -> ~ square v) -> (forall v : F, square v \/ square (gen * v)%F) ->
  wf_proof n p0 -> N.to_nat (pf_circuit_id p0) < 2 ^ ta_S T -> length d < hs -> published p0 u ->
  (* the run of the named step *)
  step_place (length l) pl -> place_index (length l) pl = Some (N.to_nat (pf_circuit_id p0)) ->
  holds (code pl F f1) res -> map (ew F F) res = pf_left_header p0 ++ pf_right_header p0 ++ AppSpec.padded hs s d ->
  (* the recursion step *)
  headers_of hs cl -> headers_of hs cr -> oe_sized N' (pp_T P) oe -> ie_sized M N' ie ->
  pv_out cl = pf_left_header p0 -> pv_out cr = pf_right_header p0 ->
  transcript_1 P (tag_values F of_u tag) u (ov_sponge oe) ->
  step_rel false P (tag_values F of_u tag) log2 cb lg M N' nbits gen zeta (internal_omega T) cl cr oe ie q e u ->
  (* the rest of the proof *)
  opens n gens (reg_xy F 1 lg native) p0 -> nested_honest n nsteps (fun i y => circuit_y Fs Ts lg reprs nested (N.of_nat i) y) p0 ->
  exists ra rpre rie roe rq re h1 h2 ic oc cv,
    let p := with_traces p0 ra rpre rie roe rq re h1 h2 ic oc cv in
    carried F P hs M N' n rpre roe rie rq re cl cr oe ie q e /\ wf_proof n p /\
    forall w y z y' z', verify p (Some s) (Some d) w y z y' z' = Some true.
Proof.
  intros p0 s d u pl res cl cr oe ie q e alpha a1 a2 a3 a4 a5 WP Hhs H22 S1 S2 S3 Wp Hc Ld Pu Pl Pi Hr Er Hl Hr' Ho Hi El Er' Ts1 Sr Op Ne.
  assert (Hn : 0 < n) by (pose proof (Nat.pow_nonzero 2 lg); lia).
  assert (L1 : length (pf_left_header p0) = hs) by (rewrite <- El; apply Hl).
  assert (L2 : length (pf_right_header p0) = hs) by (rewrite <- Er'; apply Hr').
  destruct (native_builder _ _ _ _ _ _ _ _ _ _ _ _ _ _ _ _ _ _ _ _ _ _ _ _ _ _ _ _ _ _ _ _ _ _ _ _ _ _ _ _ B) as (nb & Ef & Lg & Lo & Sl & St & Fo).
  destruct (bl_two _ _ _ _ _ _ _ _ _ _ _ _ _ _ _ _ _ _ _ _ _ _ _ _ _ _ _ _ _ _ _ _ _ _ _ _ _ _ _ _ B) as [S32 _].
  pose proof (bl_key _ _ _ _ _ _ _ _ _ _ _ _ _ _ _ _ _ _ _ _ _ _ _ _ _ _ _ _ _ _ _ _ _ _ _ _ _ _ _ _ B) as K. rewrite <- Lg in K.
  destruct (bl_step _ _ _ _ _ _ _ _ _ _ _ _ _ _ _ _ _ _ _ _ _ _ _ _ _ _ _ _ _ _ _ _ _ _ _ _ _ _ _ _ B pl Pl) as (G & outs & Eo & Lou & Ep).
  (* the application *)
  destruct (St _ (place_range _ _ Pl Pi)) as (pl' & Pl' & Pi' & Eo'). assert (pl' = pl) as -> by (apply (place_inj pl' pl _ Pl' Pl Pi' Pi)).
  destruct (nth_error (reg_order nb) (N.to_nat (pf_circuit_id p0))) as [o|] eqn:En; [|apply nth_error_None in En; pose proof (place_range _ _ Pl Pi); lia].
  destruct (circuit_owned (code pl) outs G Eo) as [Ow _].
  assert (Eo2 : prog_cobj x0 x1 x2 x3 yc onec hc lg (cbody (code pl)) outs = Some o) by congruence.
  destruct (circ_slot F T lg repr hash to_bytes from_uniform f_of_u64 S32 nb native Ef K x0 x1 x2 x3 yc onec hc _ o _ outs En Eo2 Ow) as [Fi _].
  destruct (C51_complete F n (code pl) outs res alpha G Eo Fi Hr) as (ra & Wa & _ & Za & Pa).
  (* the recursion step *)
  assert (Rg : forall id stages (c : staged F), generic_staged c ->
    native_obj T x0 x1 x2 x3 yc onec hc lg cb hs M N' P of_u tag nbits gen fsqrt zeta log2 id = multi_obj x0 x1 x2 x3 yc onec hc lg stages c -> CompileSpec2.registered n stages c).
  { intros id stages c Gc E.
    destruct (multi_slot F T lg repr hash to_bytes from_uniform f_of_u64 S32 nb native Ef K x0 x1 x2 x3 yc onec hc cb hs M N' P of_u tag nbits gen fsqrt zeta log2 Sl id stages c Gc E)
      as (bo & ou & S & Fit & _). now exists bo, ou. }
  destruct (C53_complete F P cb of_u tag log2 hs lg M N' nbits gen fsqrt zeta (internal_omega T) WP n cl cr oe ie q e u a1 a2 a3 a4 a5 Hhs H22 Hl Hr' Ho Hi S1 S2 S3
    (Rg Hashes1Circuit _ _ (s_hashes_1_gen cb hs N' P of_u tag log2) eq_refl) (Rg Hashes2Circuit _ _ (s_hashes_2_gen cb N' P) eq_refl)
    (Rg InnerCollapseCircuit _ _ (s_inner_gen cb hs M N' P) eq_refl) (Rg OuterCollapseCircuit _ _ (s_outer_gen cb hs N' P) eq_refl)
    (Rg ComputeVCircuit _ _ (s_compute_v_gen cb hs M N' lg nbits gen fsqrt zeta (internal_omega T)) eq_refl) Ts1 Sr)
    as (rpre & roe & rie & rq & re & Ca & X1 & X2 & X3 & X4 & X5 & Sp).
  rewrite El, Er' in Sp.
  destruct Sp as [P1 P2 P3 P4 P5 (h1 & r1 & M1) (h2 & r2 & M2) (ic & r3 & M3) (oc & r4 & M4) (cv & r5 & M5)].
  exists ra, rpre, rie, roe, rq, re, h1, h2, ic, oc, cv. cbv zeta. split; [exact Ca|].
  set (p := with_traces p0 ra rpre rie roe rq re h1 h2 ic oc cv).
  destruct Wp as (Wn & Wn' & Wr & Wpp).
  assert (Wp : wf_proof n p).
  { split; [|split; [exact Wn'|split; [exact Wr|exact Wpp]]].
    intros [ | |c]; [exact (Wn AbA)|exact (Wn AbB)|].
    destruct c; cbn [p with_traces native_rx]; [..]; try exact Wa; try (now apply P1); try (now apply P2); try (now apply P3); try (now apply P4); try (now apply P5);
      try (now apply M1); try (now apply M2); try (now apply M3); try (now apply M4); try (now apply M5). }
  split; [exact Wp|].
  apply (accepts_traces p s d u pl outs r1 r2 r3 r4 r5); try assumption.
  - cbn [p with_traces pf_application pf_left_header pf_right_header]. rewrite <- Er. exact Pa.
  - intros c; destruct c; cbn [p with_traces native_rx]; try exact Za; try (now apply M1); try (now apply M2); try (now apply M3); try (now apply M4); try (now apply M5).
    all: eapply stage_zero; [exact Hn|eassumption].
Qed.
End C54.
Print Assumptions C54_exact.
Print Assumptions C54_sound.
Print Assumptions C54_registry.
Print Assumptions C54_complete.
Print Assumptions C55_names_step.

(** An application builds exactly when every circuit can be built and the two
    registries have room for them. *)
Theorem C54_builds : forall (F Fs : Field) (T : TwoAdic F) (Ts : TwoAdic Fs) lg repr reprs
    hash to_bytes from_uniform f_of_u64 hash' to_bytes' from_uniform' f_of_u64'
    (x0 x1 x2 x3 yc onec hc cb : F) hs M N' P of_u tag nbits gen fsqrt zeta l sobj nsteps (nobj : ncid -> option (cobj Fs)) (code : place -> circuit F) b,
  let log2 := Nat.log2_up (length l + 15) in
  let io := iobj F T lg x0 x1 x2 x3 yc onec hc cb hs M N' P of_u tag nbits gen fsqrt zeta log2 in
  register_steps F Fs (ab_new F Fs) l = Some b -> ta_S T <= 32 /\ ta_S Ts <= 32 ->
  (forall p, step_place (length l) p -> generic (code p) /\ exists outs, couts (code p) = Some outs /\ length outs = 3 * hs /\
     place_obj l io sobj p = prog_cobj x0 x1 x2 x3 yc onec hc lg (cbody (code p)) outs) ->
  (forall id o, In id (ncid_all nsteps) -> nobj id = Some o -> exists s, obj_is lg o s) ->
  (N.of_nat (nsteps + 11) < 2 ^ 32)%N ->
  (forall w w' : F, fpow w (2 ^ log2) = f1 -> fpow w' (2 ^ log2) = f1 -> omega_key F repr w = omega_key F repr w' -> w = w') ->
  (forall w w' : Fs, fpow w (2 ^ Nat.log2_up (nsteps + 11)) = f1 -> fpow w' (2 ^ Nat.log2_up (nsteps + 11)) = f1 ->
     omega_key Fs reprs w = omega_key Fs reprs w' -> w = w') ->
  ((exists native nested, built F Fs T Ts lg repr reprs hash to_bytes from_uniform f_of_u64 hash' to_bytes' from_uniform' f_of_u64'
      x0 x1 x2 x3 yc onec hc cb hs M N' P of_u tag nbits gen fsqrt zeta l sobj nsteps nobj code native nested) <->
   (forall id, io id <> None) /\ (forall i, sobj i <> None) /\ (forall id, In id (ncid_all nsteps) -> nobj id <> None) /\
   length l + 15 <= 4 * 2 ^ lg /\ log2 <= ta_S T /\ nsteps + 11 <= 4 * 2 ^ lg /\ Nat.log2_up (nsteps + 11) <= ta_S Ts).
Proof. intros. eapply build_iff; eassumption. Qed.
Print Assumptions C54_builds.
