(** C58: seeding and rerandomising (lib.rs:213-273 of ragu_pcd): what Application::seed
    and Application::rerandomize return verifies, and only for the right header. *)
From Coq Require Import List Arith NArith Bool Lia.
From Verif Require Import FieldDef ModDef ArithModel FFTModel SparseModel SparseSpec CircModel CircSpec SatProofs GadgetModel GadgetSpec PointSpec EndoSpec EscModel EscSpec
  FoldModel SpongeModel SpongeSpec StageModel StageSpec RegModel PcdModel PcdSpec QvModel AppModel AppSpec AppProofs RecModel RecSpec RecProofs RecProofs2 CompileModel CompileSpec CompileSpec2 RecStageModel RecStageSpec Props_App Props_Rec Props_Step
  VerifyModel VerifySpec VerifySpec2 Props_Verify NestedModel NestedSpec FuseModel FuseSpec FuseProofs FuseProofs3 FuseProofs4 FuseProofs5 FuseProofs6 FuseProofs7 Props_Fuse.
Import ListNotations.
Local Open Scope nat_scope.

Lemma split_len {A : Type} : forall a b c d : list A, length a = length c -> a ++ b = c ++ d -> a = c /\ b = d.
Proof. induction a as [|x a IH]; intros b [|y c] d L E; try discriminate; [auto|]. cbn in L, E. injection E as -> E. destruct (IH b c d) as [-> ->]; auto. Qed.
Lemma app_place m i k : place_index m (PApp i) = Some k -> 15 <= k.
Proof.
  unfold place_index, step_circuit_index, circuit_index_new. destruct (m <=? i); [discriminate|]. destruct (N.ltb _ _); [|discriminate]. intros E. injection E as <-. cbn. lia.
Qed.
Lemma place_13 m pl : step_place m pl -> place_index m pl = Some (N.to_nat 13) -> pl = PStep IRerandomize.
Proof. destruct pl as [id|[]|i]; intros Pl Pi; [contradiction|reflexivity|discriminate|]. apply app_place in Pi. cbn in Pi. lia. Qed.
Lemma place_0 m pl : step_place m pl -> place_index m pl = Some 0 -> False.
Proof. destruct pl as [id|[]|i]; intros Pl Pi; [contradiction|discriminate|discriminate|]. apply app_place in Pi. lia. Qed.

Section C58.
Variables (F Fs : Field) (T : TwoAdic F) (Ts : TwoAdic Fs) (lg : nat).
Variables (repr : F -> N) (reprs : Fs -> N).
Variables (hash : list N -> list N) (to_bytes : F -> list N) (from_uniform : list N -> F) (f_of_u64 : N -> F).
Variables (hash' : list N -> list N) (to_bytes' : Fs -> list N) (from_uniform' : list N -> Fs) (f_of_u64' : N -> Fs).
Variables (x0 x1 x2 x3 yc onec hc : F) (cb : F) (hs M N' : nat) (P : pparams F) (of_u : N -> F) (tag : list N)
  (nbits : nat) (gen : F) (fsqrt : F -> option F) (zeta : F).
Variables (apps : list (step F)) (sobj : istep -> option (cobj F)).
Variables (x0' x1' x2' x3' yc' onec' hc' zeta' : Fs).
Variable code : place -> circuit F.
Variables (native : registry F) (nested : registry Fs).
Hypothesis B : built F Fs T Ts lg repr reprs hash to_bytes from_uniform f_of_u64 hash' to_bytes' from_uniform' f_of_u64'
  x0 x1 x2 x3 yc onec hc cb hs M N' P of_u tag nbits gen fsqrt zeta apps sobj 9 (nested_obj zeta' x0' x1' x2' x3' yc' onec' hc' lg nbits NUM_ENDOSCALING_POINTS) code native nested.
(* the two internal steps are what they are; the circuit of the rerandomisation is the
   same for every header it could be registered with (C44_rerandomize) *)
Variables (v0 : F) (d0 : list F).
Hypothesis Code_re : code (PStep IRerandomize) = fun W one => rerandomize_circuit F W one false hs (Some v0) (Some f1) d0.
Hypothesis Ld0 : length d0 < hs.
Hypothesis Code_tr : code (PStep ITrivial) = fun W one => trivial_circuit F W one false hs (Some f1).
Local Notation n := (2 ^ lg).
Local Notation circuits := (length apps + 15).
Local Notation log2 := (Nat.log2_up (length apps + 15)).
Hypothesis WP : wf_params P.
Hypotheses (Hhs : 0 < hs) (HM : 0 < M) (H22 : 22 <= M * N').
Hypotheses (SS : forall v s : F, fsqrt v = Some s -> (s * s)%F = v) (SN : forall v : F, fsqrt v = None -> ~ square v) (GO : forall v : F, square v \/ square (gen * v)%F).
Hypothesis Ev : Nat.even nbits = true.
Variables (H : FMod F) (aff : H -> option (Fs * Fs)) (Hs : FMod Fs) (aff' : Hs -> option (F * F)).
Variables (heq : H -> H -> bool) (gens : list H) (gens' : list Hs).
Hypothesis Hheq : forall a b : H, heq a b = true <-> a = b.
Hypotheses (Hgens : 4 * n <= length gens) (Hgens' : 4 * n <= length gens').
Hypothesis Haff : forall c xy, aff' c = Some xy -> on_curve cb xy.
Local Notation verify := (verify T Ts lg repr reprs heq gens cb hs 9 native nested).
Local Notation fuse := (fuse_core F Fs H Hs aff aff' T lg repr native gens gens' cb hs M N' P of_u tag nbits gen fsqrt zeta).
Local Notation trivial := (trivial_proof F Fs H Hs aff' lg native gens gens' hs 9).
Local Notation finish := (fuse_finish F Fs H lg gens).
Local Notation assembled := (assembled T lg cb hs M N' P of_u tag log2 nbits gen zeta fsqrt zeta').
Local Notation made := (made F Fs T lg repr cb hs M N' P of_u tag nbits gen fsqrt zeta apps zeta' code native H aff Hs aff' gens gens').
Local Notation padded := (AppSpec.padded hs).
Local Notation often := (often F Fs T Ts lg repr reprs cb hs 9 native nested H heq gens).

(** the points of the run can be endoscaled: the nine step circuits have a witness (on
    the curve: no addition meets equal or opposite points, C57_traces) *)
Definition scales (R : frun F Fs H) : Prop :=
  forall p0 qs ints, aff (pw_initial (fr_points _ _ _ R)) = Some p0 -> map aff (pw_inputs (fr_points _ _ _ R)) = map Some qs -> map aff (pw_interstitials (fr_points _ _ _ R)) = map Some ints ->
    length qs = 36 -> length ints = 9 -> forall s, s < 9 ->
    esc_holds zeta' NUM_ENDOSCALING_POINTS (mk_wires (map (fun j => fe Fs (nbit (fr_endo _ _ _ R) j)) (seq 0 nbits)) p0 qs ints) s.
(** no challenge of the run is one of the exceptional ones *)
Definition fortunate (l r : fproof F Fs H) (R : frun F Fs H) : Prop := ~ degenerate T l r R /\ scales R.
(** what a step returns on [l] and [r]: an error that is due to the challenges or to a
    point at infinity, or a run which, if fortunate, is completed to a proof with the
    properties [K] *)
Definition returns (l r : fproof F Fs H) (ol or : list F) (bl : blinds F Fs) (K : fproof F Fs H -> Prop) : Prop :=
  match fuse l r ol or bl with
  | inl AtInfinity => (exists h, aff h = None) \/ (exists c, aff' c = None)
  | inl NoInverse => exists u, (forall f, exists c, aff' c = Some (uv_pt u f)) /\ transcript P (tag_values F of_u tag) u /\ (uv_el u Umu = f0 \/ uv_el u Umu' = f0)
  | inl Misfit => False
  | inr R => fortunate l r R -> exists c, K c
  end.

(** Fusing two proofs of the application by any of its steps, where the step's circuit
    has a run from their headers to (s, d): whatever the blinding factors, the result is
    again a proof of the application and is accepted for (s, d) at every challenge. *)
Theorem C58_fuse : forall fl l sl dl fr r sr dr pl id res s d bl,
  made fl l sl dl -> made fr r sr dr -> (fl = true /\ fr = true) \/ (sl = f1 /\ sr = f1) ->
  step_place (length apps) pl -> place_index (length apps) pl = Some (N.to_nat id) -> length d < hs ->
  holds (code pl F f1) res -> map (ew F F) res = padded sl dl ++ padded sr dr ++ padded s d ->
  returns l r (padded sl dl) (padded sr dr) bl (fun c =>
    pf_circuit_id (fp_proof c) = id /\ made true c s d /\ forall w y z y' z', verify (fp_proof c) (Some s) (Some d) w y z y' z' = Some true).
Proof.
  intros fl l sl dl fr r sr dr pl id res s d bl Ml Mr Ch Pl Pi Ld Ho Er.
  destruct (C57_made _ _ _ _ _ _ _ _ _ _ _ _ _ _ _ _ _ _ _ _ _ _ _ _ _ _ _ _ _ _ _ _ _ _ _ _ _ _ _ _ _ _ _ _ _ _ B WP Hhs HM H22 SS SN GO Ev H aff Hs aff' heq gens gens' Hheq Hgens Haff fl l sl dl Ml) as ((ul & Vl & Sl) & Ll & _).
  destruct (C57_made _ _ _ _ _ _ _ _ _ _ _ _ _ _ _ _ _ _ _ _ _ _ _ _ _ _ _ _ _ _ _ _ _ _ _ _ _ _ _ _ _ _ _ _ _ _ B WP Hhs HM H22 SS SN GO Ev H aff Hs aff' heq gens gens' Hheq Hgens Haff fr r sr dr Mr) as ((ur & Vr & Sr) & Lr & _).
  assert (Pll : length (padded sl dl) = hs) by now apply padded_len. assert (Plr : length (padded sr dr) = hs) by now apply padded_len.
  unfold returns.
  pose proof (C57_runs _ _ _ _ _ _ _ _ _ _ _ _ _ _ _ _ _ _ _ _ _ _ _ _ _ _ _ _ _ _ _ _ _ _ _ _ _ _ _ _ _ _ _ _ _ _ B WP Hhs HM H22 SS SN GO Ev H aff Hs aff' gens gens' Hgens Hgens' l r ul ur _ _ bl Vl Vr Pll Plr) as Run.
  destruct (fuse l r (padded sl dl) (padded sr dr) bl) as [[ | | ]|R] eqn:ER; try exact Run. clear Run. intros (Dg & Sc).
  assert (Chi : is_base (shown T (fp_proof l) ul (padded sl dl)) (shown T (fp_proof r) ur (padded sr dr)) \/
    (sound T lg repr native circuits l ul (padded sl dl) /\ sound T lg repr native circuits r ur (padded sr dr))).
  { destruct Ch as [[-> ->]|[-> ->]]; [right; auto|]. left. unfold is_base. cbn [shown pv_out]. unfold AppSpec.padded. now rewrite !app_assoc, !last_last. }
  destruct (C57_step _ _ _ _ _ _ _ _ _ _ _ _ _ _ _ _ _ _ _ _ _ _ _ _ _ _ _ _ _ _ _ _ _ _ _ _ _ _ _ _ _ _ _ _ _ _ B WP Hhs HM H22 SS SN GO Ev H aff Hs aff' gens gens' Hgens Haff l r ul ur _ _ bl R Vl Vr Pll Plr ER Dg Chi)
    as (u & Sp & Bd & _). cbv zeta in Sp.
  assert (Hl : headers_of hs (shown T (fp_proof l) ul (padded sl dl))) by (split; [exact (vd_left Vl)|]; split; [exact (vd_right Vl)|exact Pll]).
  assert (Hr : headers_of hs (shown T (fp_proof r) ur (padded sr dr))) by (split; [exact (vd_left Vr)|]; split; [exact (vd_right Vr)|exact Plr]).
  destruct (traces_with _ _ _ _ _ _ _ _ _ _ _ _ _ _ _ _ _ _ _ _ _ _ _ _ _ _ _ _ _ _ _ _ _ _ _ _ _ _ _ _ _ _ _ _ _ _ B H aff Hs aff' gens gens' Hgens WP Hhs HM H22 SS SN GO
    bl _ _ R u pl _ res f1 s d l r Sp Hl Hr Pl Pi Ho Er Bd Sc) as (app & h1 & h2 & ic & oc & cv & steps & As).
  destruct (C57_fused _ _ _ _ _ _ _ _ _ _ _ _ _ _ _ _ _ _ _ _ _ _ _ _ _ _ _ _ _ _ _ _ _ _ _ _ _ _ _ _ _ _ _ _ _ _ B Hhs HM H22 H aff Hs aff' heq gens gens' Hheq Hgens Haff
    l r bl _ _ R u pl id s d app h1 h2 ic oc cv steps Sp Bd Hl Hr Pl Pi Ld As) as (c & Ec & _ & _ & Ac).
  exists c. split; [|split; [|exact Ac]].
  - unfold fuse_finish in Ec. match type of Ec with obind ?o _ = _ => destruct o; [|discriminate] end. cbn [obind] in Ec. injection Ec as <-. reflexivity.
  - exact (made_fused _ _ _ _ _ _ _ _ _ _ _ _ _ _ _ _ _ _ _ _ _ _ _ _ _ _ fl l sl dl fr r sr dr bl R u pl id s d app h1 h2 ic oc cv steps c Ml Mr Ch ER Dg Pl Pi Ld (sp_instance Sp) As Ec).
Qed.

(** Seeding: a step with a run from two trivial headers, on two trivial proofs. *)
Theorem C58_seed : forall c0 pl id res s d bl, trivial = Some c0 -> (forall f, br_commitment (pf_bridge (fp_proof c0) f) <> None) ->
  step_place (length apps) pl -> place_index (length apps) pl = Some (N.to_nat id) -> length d < hs ->
  holds (code pl F f1) res -> map (ew F F) res = padded f1 [] ++ padded f1 [] ++ padded s d ->
  returns c0 c0 (padded f1 []) (padded f1 []) bl (fun c =>
    pf_circuit_id (fp_proof c) = id /\ made true c s d /\ forall w y z y' z', verify (fp_proof c) (Some s) (Some d) w y z y' z' = Some true).
Proof.
  intros c0 pl id res s d bl E Fin Pl Pi Ld Ho Er. pose proof (made_trivial F Fs T lg repr cb hs M N' P of_u tag nbits gen fsqrt zeta apps zeta' code native H aff Hs aff' gens gens' c0 E Fin) as M0.
  exact (C58_fuse false c0 f1 [] false c0 f1 [] pl id res s d bl M0 M0 (or_intror (conj eq_refl eq_refl)) Pl Pi Ld Ho Er).
Qed.
(** The seeded trivial proof used for rerandomising: the internal trivial step always
    has a run, and the result verifies for the trivial header. *)
Theorem C58_seeded_trivial : forall c0 bl, trivial = Some c0 -> (forall f, br_commitment (pf_bridge (fp_proof c0) f) <> None) ->
  returns c0 c0 (padded f1 []) (padded f1 []) bl (fun c =>
    pf_circuit_id (fp_proof c) = 14%N /\ made true c f1 [] /\ forall w y z y' z', verify (fp_proof c) (Some f1) (Some []) w y z y' z' = Some true).
Proof.
  intros c0 bl E Fin. apply (C58_seed c0 (PStep ITrivial) 14%N (map wir (padded f1 [] ++ padded f1 [] ++ padded f1 [])) f1 [] bl E Fin); try exact Logic.I; try exact Hhs; try reflexivity.
  - rewrite Code_tr. exact (proj2 (proj1 (C44_trivial F (fun _ => f1) hs Hhs) _) eq_refl).
  - rewrite map_map. cbn [ew wir]. now rewrite map_id.
Qed.

(** Rerandomising a proof made by the application, against the seeded trivial proof: the
    rerandomisation step always has a run, whatever the header, and the result verifies
    for the same header. *)
Theorem C58_rerandomize : forall p s d t bl, made true p s d -> made true t f1 [] ->
  returns p t (padded s d) (padded f1 []) bl (fun c =>
    pf_circuit_id (fp_proof c) = 13%N /\ made true c s d /\ forall w y z y' z', verify (fp_proof c) (Some s) (Some d) w y z y' z' = Some true).
Proof.
  intros p s d t bl Mp Mt.
  destruct (C57_made _ _ _ _ _ _ _ _ _ _ _ _ _ _ _ _ _ _ _ _ _ _ _ _ _ _ _ _ _ _ _ _ _ _ _ _ _ _ _ _ _ _ _ _ _ _ B WP Hhs HM H22 SS SN GO Ev H aff Hs aff' heq gens gens' Hheq Hgens Haff true p s d Mp) as (_ & Ld & _).
  apply (C58_fuse true p s d true t f1 [] (PStep IRerandomize) 13%N (map wir (padded s d ++ padded f1 [] ++ padded s d)) s d bl Mp Mt (or_introl (conj eq_refl eq_refl))); try exact Logic.I; try exact Ld; try reflexivity.
  - rewrite Code_re. apply (proj1 (proj2 (C44_rerandomize F hs v0 f1 d0 Ld0))). exists (padded s d). split; [now apply padded_len|reflexivity].
  - rewrite map_map. cbn [ew wir]. now rewrite map_id.
Qed.

(** ** only the right header *)
(** An accepted proof that names the rerandomisation step carries the header of its left
    child, and its right child the trivial header. *)
Theorem C58_same_header : forall (p : proof F Fs H) sfx data ys, wf_proof n p -> N.to_nat (pf_circuit_id p) < 2 ^ ta_S T -> often p sfx data ys -> sfx <> Some f0 ->
  pf_circuit_id p = 13%N -> exists s d, sfx = Some s /\ data = Some d /\ pf_left_header p = padded s d /\ pf_right_header p = padded f1 [].
Proof.
  intros p sfx data ys Wp Hc Of Ns Id.
  destruct (C54_sound _ _ _ _ _ _ _ _ _ _ _ _ _ _ _ _ _ _ _ _ _ _ _ _ _ _ _ _ _ _ _ _ _ _ _ _ _ _ _ _ B (Nat.lt_0_succ 8) H heq gens Hheq Hgens p sfx data ys Wp Hc Of WP Hhs H22 SS SN GO Ns)
    as (s & d & u & Es & Ed & Ld & _ & (pl & res & Pl & Pi & Ho & Er) & (cl & cr & _ & _ & _ & _ & _ & _ & (_ & _ & Hl) & (_ & _ & Hr) & Ol & Or & _) & _).
  exists s, d. split; [exact Es|]. split; [exact Ed|]. rewrite Id in Pi.
  pose proof (place_13 (length apps) pl Pl Pi) as Ep. subst pl.
  rewrite Code_re in Ho. apply (proj1 (proj2 (C44_rerandomize F hs v0 f1 d0 Ld0))) in Ho. destruct Ho as (h & Lh & ->).
  rewrite map_map in Er. cbn [ew wir] in Er. rewrite map_id in Er. rewrite Ol in Hl. rewrite Or in Hr.
  assert (Lp : length (padded (f1 : F) []) = hs) by (now apply padded_len).
  destruct (split_len _ _ _ _ (eq_trans Lh (eq_sym Hl)) Er) as [E1 Er']. destruct (split_len _ _ _ _ (eq_trans Lp (eq_sym Hr)) Er') as [E2 E3].
  split; congruence.
Qed.
(** The trivial proof itself is not accepted, for any header an application can have: it
    names an internal circuit. *)
Theorem C58_trivial_rejected : forall c0 sfx data, trivial = Some c0 -> (forall f, br_commitment (pf_bridge (fp_proof c0) f) <> None) -> sfx <> Some f0 ->
  ~ exists ys, often (fp_proof c0) sfx data ys.
Proof.
  intros c0 sfx data E Fin Ns (ys & Of).
  destruct (C57_trivial _ _ _ _ _ _ _ _ _ _ _ _ _ _ _ _ _ _ _ _ _ _ _ _ _ _ _ _ _ _ _ _ _ _ _ _ _ _ _ _ _ _ _ _ _ _ B Hhs HM H22 H Hs aff' gens gens' Hgens Haff c0 E Fin) as (u & V).
  assert (Id : pf_circuit_id (fp_proof c0) = 0%N).
  { clear -E. unfold trivial_proof in E. repeat match type of E with obind ?o _ = _ => destruct o; [|discriminate]; cbn [obind] in E end. injection E as <-. reflexivity. }
  destruct (C55_names_step _ _ _ _ _ _ _ _ _ _ _ _ _ _ _ _ _ _ _ _ _ _ _ _ _ _ _ _ _ _ _ _ _ _ _ _ _ _ _ _ B (Nat.lt_0_succ 8) H heq gens Hheq Hgens (fp_proof c0) sfx data ys (vd_wf V)) as (pl & Pl & Pi); auto.
  - rewrite Id. cbn. pose proof (Nat.pow_nonzero 2 (ta_S T)). lia.
  - rewrite Id in Pi. exact (place_0 _ _ Pl Pi).
Qed.
End C58.
Print Assumptions C58_fuse.
Print Assumptions C58_seed.
Print Assumptions C58_seeded_trivial.
Print Assumptions C58_rerandomize.
Print Assumptions C58_same_header.
Print Assumptions C58_trivial_rejected.
