(** C62: an accepted proof whose ancestors can be had carries a computed header. *)
From Coq Require Import List Arith NArith Bool Lia Ring Field.
From Verif Require Import FieldDef ModDef ArithModel FFTModel SparseModel SparseSpec CircModel CircSpec GadgetModel GadgetSpec GadgetProofs SpongeModel SpongeSpec StageModel RegModel RegSpec
  EndoSpec EscModel EscSpec PcdModel PcdSpec RecModel RecSpec CompileModel CompileSpec CompileSpec2 RecStageModel RecStageSpec
  AppModel AppSpec AppProofs Props_Reg Props_App Props_Comp Props_Rec Props_Step
  FFTProofs RegProofs RegProofs2 VerifyModel VerifySpec VerifySpec2 VerifyProofs8 Props_Verify NestedModel NestedSpec PointSpec FuseModel FuseSpec Props_Fuse Props_Seed AccSpec Props_Acc HistSpec.
Import ListNotations.
Open Scope f_scope.
Local Open Scope nat_scope.

Lemma last_padded (F : Field) hs (v : F) d : last (AppSpec.padded hs v d) f0 = v.
Proof. unfold AppSpec.padded. now rewrite app_assoc, last_last. Qed.
Lemma app_eq_len {A} (a b c d : list A) : length a = length c -> a ++ b = c ++ d -> a = c /\ b = d.
Proof.
  revert c. induction a as [|x a IH]; intros [|y c] L E; cbn in *; try discriminate; [auto|]. injection E as -> E. destruct (IH c ltac:(lia) E). now subst.
Qed.

(** The circuits the application registers for its steps, the witness function of a step
    followed by the adapter, and the two internal ones, mean the steps: so C62_accepted
    applies with the witness functions' own relations. *)
Theorem C62_means : forall (F : Field) hs (of_u : N -> F) (bs : list (sbody F)) (code : place -> circuit F) v0 d0,
  0 < hs -> length d0 < hs -> of_u 1%N = f1 ->
  (forall b s v, In b bs -> s = sb_left b \/ s = sb_right b -> suffix_get true s = Some v -> (of_u v = f0 -> v = 0%N) /\ (of_u v = f1 -> v = 1%N)) ->
  code (PStep IRerandomize) F f1 = rerandomize_circuit F F f1 false hs (Some v0) (Some f1) d0 ->
  code (PStep ITrivial) F f1 = trivial_circuit F F f1 false hs (Some f1) ->
  (forall i b res, nth_error bs i = Some b -> holds (code (PApp i) F f1) res -> holds (gbind (sb_run b) (fun t =>
     adapter_write F F f1 false hs (Some (suffix_value of_u (sb_left b))) (Some (suffix_value of_u (sb_right b))) (Some (suffix_value of_u (sb_out b)))
       (EncGadget (map wir (fst (fst t)))) (EncGadget (map wir (snd (fst t)))) (EncGadget (map wir (snd t))))) res) ->
  Forall header_types bs ->
  code_means hs (map (step_of of_u) bs) code.
Proof.
  intros F hs of_u bs code v0 d0 Hhs Ld0 U1 INJ Cr Ct Ca Ht.
  assert (Wm : forall a : list F, map (ew F F) (map wir a) = a) by (intros a; rewrite map_map; apply map_id).
  constructor.
  - intros i st res E Ho. rewrite nth_error_map in E. destruct (nth_error bs i) as [b|] eqn:Eb; [|discriminate]. injection E as <-.
    apply (Ca i b res Eb) in Ho. apply holds_bind in Ho. destruct Ho as (((dl & dr) & d) & Hr & Ho). cbn [fst snd] in Ho.
    apply (proj1 (C44_adapter F hs _ _ _ dl dr d)) in Ho. destruct Ho as ((L1 & L2 & L3) & ->).
    exists dl, dr, d. rewrite Wm. cbn [step_of ts_left ts_right ts_out ts_rel]. auto 6.
  - intros i st dl dr d E Rl. rewrite nth_error_map in E. destruct (nth_error bs i) as [b|] eqn:Eb; [|discriminate]. injection E as <-. cbn [step_of ts_left ts_right ts_rel] in *.
    pose proof (proj1 (Forall_forall _ _) Ht b (nth_error_In _ _ Eb) dl dr d Rl) as X.
    assert (K : forall s dt, (s, dt) = (sb_left b, dl) \/ (s, dt) = (sb_right b, dr) -> suffix_value of_u s <> f0 /\ (suffix_value of_u s = f1 -> dt = [])).
    { intros s dt Hs. destruct (X s dt Hs) as [(j & -> & Nn)|[-> ->]].
      - unfold suffix_value. destruct (suffix_get true (SufApplication j)) as [v|] eqn:Ev; [|congruence].
        cbn [suffix_get] in Ev. destruct (N.ltb_spec (j + NUM_INTERNAL_SUFFIXES) (2 ^ 64)) as [Lj|]; [|discriminate]. injection Ev as <-.
        destruct (INJ b (SufApplication j) (j + NUM_INTERNAL_SUFFIXES)%N (nth_error_In _ _ Eb)) as [I0 I1];
          [destruct Hs as [Hs|Hs]; injection Hs as -> _; auto|cbn [suffix_get]; apply N.ltb_lt in Lj; now rewrite Lj|].
        split; intros E; [apply I0 in E|apply I1 in E]; unfold NUM_INTERNAL_SUFFIXES in E; lia.
      - split; [|reflexivity]. change (of_u 1%N <> f0). rewrite U1. exact (F_1_neq_0 (f_theory F)). }
    destruct (K _ _ (or_introl eq_refl)) as [A1 A2]. destruct (K _ _ (or_intror eq_refl)) as [B1 B2]. auto.
  - intros res Ho. rewrite Cr in Ho. apply (proj1 (proj2 (C44_rerandomize F hs v0 f1 d0 Ld0))) in Ho. destruct Ho as (h & Lh & ->). exists h. now rewrite Wm.
  - intros res Ho. rewrite Ct in Ho. apply (proj1 (C44_trivial F (fun _ => f1) hs Hhs)) in Ho. now rewrite Ho, Wm.
Qed.
Print Assumptions C62_means.

Section C62.
Variables (F Fs : Field) (T : TwoAdic F) (Ts : TwoAdic Fs) (lg : nat).
Variables (repr : F -> N) (reprs : Fs -> N).
Variables (hash : list N -> list N) (to_bytes : F -> list N) (from_uniform : list N -> F) (f_of_u64 : N -> F).
Variables (hash' : list N -> list N) (to_bytes' : Fs -> list N) (from_uniform' : list N -> Fs) (f_of_u64' : N -> Fs).
Variables (x0 x1 x2 x3 yc onec hc : F) (cb : F) (hs M N' : nat) (P : pparams F) (of_u : N -> F) (tag : list N)
  (nbits : nat) (gen : F) (fsqrt : F -> option F) (zeta : F).
Variables (l : list (step F)) (sobj : istep -> option (cobj F)) (nsteps : nat) (nobj : ncid -> option (cobj Fs)).
Variable code : place -> circuit F.
Variables (native : registry F) (nested : registry Fs).
Hypothesis B : built F Fs T Ts lg repr reprs hash to_bytes from_uniform f_of_u64 hash' to_bytes' from_uniform' f_of_u64'
  x0 x1 x2 x3 yc onec hc cb hs M N' P of_u tag nbits gen fsqrt zeta l sobj nsteps nobj code native nested.
Local Notation log2 := (Nat.log2_up (length l + 15)).
Local Notation n := (2 ^ lg).
Variable H : FMod F.
Local Notation rv := (reg_rv T lg repr native).
Local Notation padded := (AppSpec.padded hs).
Local Notation backed := (backed T lg log2 hs M N' cb nbits gen zeta rv).
Hypothesis WP : wf_params P.
Hypotheses (Hhs : 0 < hs) (HM : 0 < M) (H22 : 22 <= M * N') (Hlg : 1 <= lg).
Hypotheses (SS : forall v s : F, fsqrt v = Some s -> (s * s)%F = v) (SN : forall v : F, fsqrt v = None -> ~ square v) (GO : forall v : F, square v \/ square (gen * v)%F).
(* the application's steps *)
Variable steps : list (tstep F).
Hypothesis Hsteps : length steps = length l.
Hypothesis CM : code_means hs steps code.

(** a header of the right form: not marked as internal, and trivial if marked so *)
Definition well_marked (out : list F) : Prop := length out = hs /\ last out f0 <> f0 /\ (last out f0 = f1 -> out = padded f1 []).
Lemma marked_padded (v : F) d : length d < hs -> v <> f0 -> (v = f1 -> d = []) -> well_marked (padded v d).
Proof. intros L Nz E1. split; [now apply padded_len|]. rewrite last_padded. split; [exact Nz|]. intros E. now rewrite E, (E1 E). Qed.
Lemma marked_split out : well_marked out -> exists o s, out = o ++ [s] /\ s <> f0 /\ s = last out f0.
Proof.
  intros (L & Nz & _). destruct (exists_last (l := out)) as (o & s & ->); [intros ->; cbn in L; lia|]. exists o, s. rewrite last_last in *. auto.
Qed.

(** one run of a step's code *)
Lemma run_cases pl res (L R out : list F) : step_place (length l) pl -> holds (code pl F f1) res -> map (ew F F) res = L ++ R ++ out ->
  length L = hs -> length R = hs -> well_marked out ->
  (well_marked L /\ well_marked R) /\ (derived hs steps L -> derived hs steps R -> derived hs steps out).
Proof.
  intros Pl Ho Er LL LR Mo. pose proof (F_1_neq_0 (f_theory F)) as N1.
  assert (M1 : well_marked (padded f1 [])) by (apply marked_padded; auto).
  destruct pl as [id|[|]|i]; cbn [step_place] in Pl; [tauto| | |].
  - destruct (cm_rerandomize _ _ _ _ CM res Ho) as (h & Lh & E). rewrite E in Er. destruct (app_eq_len _ _ _ _ (eq_trans Lh (eq_sym LL)) Er) as [<- Er'].
    destruct (app_eq_len _ _ _ _ (eq_trans (padded_len F hs f1 [] Hhs) (eq_sym LR)) Er') as [<- <-]. auto.
  - pose proof (cm_trivial _ _ _ _ CM res Ho) as E. rewrite E in Er. destruct (app_eq_len _ _ _ _ (eq_trans (padded_len F hs f1 [] Hhs) (eq_sym LL)) Er) as [<- Er'].
    destruct (app_eq_len _ _ _ _ (eq_trans (padded_len F hs f1 [] Hhs) (eq_sym LR)) Er') as [<- <-]. auto.
  - destruct (nth_error steps i) as [st|] eqn:Es; [|apply nth_error_None in Es; lia].
    destruct (cm_app _ _ _ _ CM i st res Es Ho) as (dl & dr & d & E & Ll & Lr & Ld & Rl). rewrite E in Er.
    destruct (app_eq_len _ _ _ _ (eq_trans (padded_len F hs _ _ Ll) (eq_sym LL)) Er) as [<- Er'].
    destruct (app_eq_len _ _ _ _ (eq_trans (padded_len F hs _ _ Lr) (eq_sym LR)) Er') as [<- <-].
    destruct (cm_suffix _ _ _ _ CM i st dl dr d Es Rl) as (S1 & S2 & S3 & S4).
    split; [split; apply marked_padded; auto|]. intros D1 D2. now apply (dv_step F hs steps i st dl dr d).
Qed.

(** A run of a step's code behind a proof (shown by C54 for an accepted one, by C61 for
    the children of a forked step), together with its ancestors, makes its header a
    computed one. *)
Theorem C62_history : forall (p : proof F Fs H) out, backed p out ->
  (exists pl res, step_place (length l) pl /\ holds (code pl F f1) res /\ map (ew F F) res = pf_left_header p ++ pf_right_header p ++ out) ->
  length (pf_left_header p) = hs -> length (pf_right_header p) = hs -> well_marked out -> derived hs steps out.
Proof.
  intros p out Bk. induction Bk as [p out E|p out E1 E2|p out p1 u1 p2 u2 O1 O2 FK B1 IH1 B2 IH2]; intros Sh LL LR Mo.
  - destruct Mo as (_ & _ & Et). rewrite (Et E). constructor.
  - destruct Sh as (pl & res & Pl & Ho & Er). destruct (run_cases pl res _ _ out Pl Ho Er LL LR Mo) as (((_ & _ & T1) & (_ & _ & T2)) & D).
    apply D; [rewrite (T1 E1)|rewrite (T2 E2)]; constructor.
  - destruct Sh as (pl & res & Pl & Ho & Er). destruct (run_cases pl res _ _ out Pl Ho Er LL LR Mo) as ((M1 & M2) & D).
    assert (Dc : (last (pf_left_header p) f0 = f1 /\ last (pf_right_header p) f0 = f1) \/ ~ (last (pf_left_header p) f0 = f1 /\ last (pf_right_header p) f0 = f1)).
    { destruct (feqb (last (pf_left_header p) f0) f1) eqn:X1; destruct (feqb (last (pf_right_header p) f0) f1) eqn:X2; [left; split; now apply feqb_true|right|right|right];
        intros [Y1 Y2]; apply feqb_true in Y1; apply feqb_true in Y2; congruence. }
    destruct Dc as [[E1 E2]|NB].
    { destruct M1 as (_ & _ & T1). destruct M2 as (_ & _ & T2). apply D; [rewrite (T1 E1)|rewrite (T2 E2)]; constructor. }
    destruct (marked_split _ M1) as (o1 & s1 & Eo1 & Ns1 & El1). destruct (marked_split _ M2) as (o2 & s2 & Eo2 & Ns2 & El2).
    destruct O1 as (W1 & C1 & A1 & A1' & Pu1). destruct O2 as (W2 & C2 & A2 & A2' & Pu2).
    rewrite <- El1, <- El2 in NB.
    destruct (C61_children _ _ _ _ _ _ _ _ _ _ _ _ _ _ _ _ _ _ _ _ _ _ _ _ _ _ _ _ _ _ _ _ _ _ _ _ _ _ _ _ B H p1 p2 u1 u2 o1 s1 o2 s2) as [Sh1 Sh2]; auto.
    + intros q [->| ->]; auto.
    + now rewrite <- Eo1.
    + now rewrite <- Eo2.
    + rewrite <- Eo1, <- Eo2. exact FK.
    + rewrite <- Eo1 in Sh1. rewrite <- Eo2 in Sh2. destruct Sh1 as ((pl1 & r1 & Pl1 & _ & Ho1 & Er1) & _). destruct Sh2 as ((pl2 & r2 & Pl2 & _ & Ho2 & Er2) & _).
      apply D; [apply IH1; auto; now exists pl1, r1|apply IH2; auto; now exists pl2, r2].
Qed.

(** The verifier's side: a proof accepted at enough challenges, for a header with a
    suffix an application can have, whose ancestors can be had: the header is computed
    by a tree of the application's steps. *)
Section Accepted.
Hypothesis Hst : 0 < nsteps.
Variables (heq : H -> H -> bool) (gens : list H).
Hypothesis Hheq : forall a b : H, heq a b = true <-> a = b.
Hypothesis Hgens : 4 * n <= length gens.
Theorem C62_accepted : forall (p : proof F Fs H) s d ys, wf_proof n p -> N.to_nat (pf_circuit_id p) < 2 ^ ta_S T ->
  often F Fs T Ts lg repr reprs cb hs nsteps native nested H heq gens p (Some s) (Some d) ys ->
  s <> f0 -> (s = f1 -> d = []) -> backed p (padded s d) -> derived hs steps (padded s d).
Proof.
  intros p s d ys Wp Hc Of Ns E1 Bk.
  destruct (often_claims _ _ _ _ _ _ _ _ _ _ _ _ _ _ _ _ _ _ _ _ _ _ _ _ _ _ _ _ _ _ _ _ _ _ _ _ _ _ _ _ B Hst H heq gens Hheq Hgens p _ _ _ Wp Hc Of)
    as (_ & s0 & d0 & _ & Es & Ed & Ld & _ & L1 & L2 & _). injection Es as <-. injection Ed as <-.
  destruct (C54_sound _ _ _ _ _ _ _ _ _ _ _ _ _ _ _ _ _ _ _ _ _ _ _ _ _ _ _ _ _ _ _ _ _ _ _ _ _ _ _ _ B Hst H heq gens Hheq Hgens p _ _ _ Wp Hc Of WP Hhs H22 SS SN GO)
    as (s0 & d0 & u & Es & Ed & _ & _ & (pl & res & Pl & _ & Ho & Er) & _); [congruence|]. injection Es as <-. injection Ed as <-.
  apply (C62_history p _ Bk); auto; [now exists pl, res|now apply marked_padded].
Qed.
End Accepted.
End C62.

(** The prover's side: all proofs an application makes (C57) have their ancestors. *)
Section Made.
Variables (F Fs : Field) (T : TwoAdic F) (Ts : TwoAdic Fs) (lg : nat).
Variables (repr : F -> N) (reprs : Fs -> N).
Variables (hash : list N -> list N) (to_bytes : F -> list N) (from_uniform : list N -> F) (f_of_u64 : N -> F).
Variables (hash' : list N -> list N) (to_bytes' : Fs -> list N) (from_uniform' : list N -> Fs) (f_of_u64' : N -> Fs).
Variables (x0 x1 x2 x3 yc onec hc : F) (cb : F) (hs M N' : nat) (P : pparams F) (of_u : N -> F) (tag : list N)
  (nbits : nat) (gen : F) (fsqrt : F -> option F) (zeta : F).
Variables (apps : list (step F)) (sobj : istep -> option (cobj F)).
Variables (x0' x1' x2' x3' yc' onec' hc' zeta' : Fs).
Variable code : place -> circuit F.
Variables (native : registry F) (nested : registry Fs).
Hypothesis B : built F Fs T Ts lg repr reprs hash to_bytes from_uniform f_of_u64 hash' to_bytes' from_uniform' f_of_u64'
  x0 x1 x2 x3 yc onec hc cb hs M N' P of_u tag nbits gen fsqrt zeta apps sobj 9 (nested_obj zeta' x0' x1' x2' x3' yc' onec' hc' lg nbits NUM_ENDOSCALING_POINTS) code native nested.
Local Notation n := (2 ^ lg).
Local Notation log2 := (Nat.log2_up (length apps + 15)).
Hypothesis WP : wf_params P.
Hypotheses (Hhs : 0 < hs) (HM : 0 < M) (H22 : 22 <= M * N').
Hypotheses (SS : forall v s : F, fsqrt v = Some s -> (s * s)%F = v) (SN : forall v : F, fsqrt v = None -> ~ square v) (GO : forall v : F, square v \/ square (gen * v)%F).
Hypothesis Ev : Nat.even nbits = true.
Variables (H : FMod F) (aff : H -> option (Fs * Fs)) (Hs : FMod Fs) (aff' : Hs -> option (F * F)).
Variables (heq : H -> H -> bool) (gens : list H) (gens' : list Hs).
Hypothesis Hheq : forall a b : H, heq a b = true <-> a = b.
Hypotheses (Hgens : 4 * n <= length gens) (Hgens' : 4 * n <= length gens').
Hypothesis Haff : forall c xy, aff' c = Some xy -> on_curve cb xy.
Local Notation verify := (verify T Ts lg repr reprs heq gens cb hs 9 native nested).
Local Notation made := (made F Fs T lg repr cb hs M N' P of_u tag nbits gen fsqrt zeta apps zeta' code native H aff Hs aff' gens gens').
Local Notation padded := (AppSpec.padded hs).
Theorem C62_made : 1 <= lg -> M < 4 * n + 80 -> N' < 4 * n + 80 ->
  many (4 * n + 80) (fun _ : F => True) ->
  many 37 (fun be : F => exists pb, is_beta false nbits gen zeta pb be /\ forall b, is_beta false nbits gen zeta pb b -> b = be) ->
  forall f c s d, made f c s d -> f = true -> backed T lg log2 hs M N' cb nbits gen zeta (reg_rv T lg repr native) (fp_proof c) (padded s d).
Proof.
  intros Hlg HMs HNs Big Be f c s d Md.
  assert (DS : log2 <= ta_S T).
  { destruct (native_builder _ _ _ _ _ _ _ _ _ _ _ _ _ _ _ _ _ _ _ _ _ _ _ _ _ _ _ _ _ _ _ _ _ _ _ _ _ _ _ _ B) as (nb & Ef & Lg & _).
    destruct (finalize_inv F T repr lg hash to_bytes from_uniform f_of_u64 nb native Ef) as (_ & dm & Ed & _). rewrite Lg in Ed. exact (proj1 (domain_new_inv F T _ _ Ed)). }
  assert (MM : forall f c s d, made f c s d -> f = true -> exists u, wf_proof n (fp_proof c) /\ N.to_nat (pf_circuit_id (fp_proof c)) < 2 ^ ta_S T /\
     length (pf_left_header (fp_proof c)) = hs /\ length (pf_right_header (fp_proof c)) = hs /\ published (fp_proof c) u /\ pts_on cb u /\
     forall w y z y' z', verify (fp_proof c) (Some s) (Some d) w y z y' z' = Some true).
  { intros f' c' s' d' M' E. destruct (C57_made _ _ _ _ _ _ _ _ _ _ _ _ _ _ _ _ _ _ _ _ _ _ _ _ _ _ _ _ _ _ _ _ _ _ _ _ _ _ _ _ _ _ _ _ _ _ B WP Hhs HM H22 SS SN GO Ev H aff Hs aff' heq gens gens' Hheq Hgens Haff _ _ _ _ M') as ((u & V & _) & _ & A).
    exists u. split; [exact (vd_wf V)|]. split; [|split; [exact (vd_left V)|split; [exact (vd_right V)|split; [exact (vd_published V)|split; [exact (vd_points V)|exact (A E)]]]]].
    pose proof (vd_id V) as Hi. pose proof (Nat.log2_log2_up_spec (length apps + 15) ltac:(lia)) as [_ Hl]. pose proof (Nat.pow_le_mono_r 2 log2 (ta_S T) ltac:(lia) DS). lia. }
  induction Md as [c Ec Fin|fl l sl dl fr r sr dr bl R u pl id s d app h1 h2 ic oc cv steps c Ml IHl Mr IHr Ch Run Deg Pl Pi Ld In As Ec]; [discriminate|]. intros _.
  assert (Hd : pf_left_header (fp_proof c) = padded sl dl /\ pf_right_header (fp_proof c) = padded sr dr).
  { clear -Ec. unfold fuse_finish in Ec. cbv zeta in Ec. match type of Ec with obind ?o _ = _ => destruct o end; [|discriminate]. cbn [obind] in Ec.
    injection Ec as <-. cbn [fp_proof]. split; reflexivity. }
  destruct Hd as [El Er].
  destruct Ch as [[-> ->]|[-> ->]].
  - destruct (MM _ _ _ _ Ml eq_refl) as (ul & Wl & Il & A1 & A2 & Pul & Ptl & Vl). destruct (MM _ _ _ _ Mr eq_refl) as (ur & Wr & Ir & B1 & B2 & Pur & Ptr & Vr).
    apply (bk_step F Fs H T lg log2 hs M N' cb nbits gen zeta _ (fp_proof c) _ (fp_proof l) ul (fp_proof r) ur); [repeat (split; [assumption|]); assumption|repeat (split; [assumption|]); assumption| |rewrite El; auto|rewrite Er; auto].
    rewrite El, Er.
    apply (C61_accepted _ _ _ _ _ _ _ _ _ _ _ _ _ _ _ _ _ _ _ _ _ _ _ _ _ _ _ _ _ _ _ _ _ _ _ _ _ _ _ _ B H ltac:(lia) heq gens Hheq Hgens); auto.
    intros p u' s' d' [E|E]; injection E as -> -> -> ->; auto 6.
  - apply bk_seed; [rewrite El|rewrite Er]; apply last_padded.
Qed.
End Made.
Print Assumptions C62_history.
Print Assumptions C62_accepted.
Print Assumptions C62_made.
