(** Proofs for C56: the nested circuits and their claims. *)
From Coq Require Import List Arith NArith Bool Lia Ring Field.
From Verif Require Import FieldDef ModDef ArithModel ArithSpec ArithProofs FFTModel FFTProofs SparseModel SparseSpec SparseProofs SparseProofs2 TModel TProofs
  FoldModel FoldSpec ClaimModel CircModel CircSpec SyModel SProofs TraceModel CircProofs CircProofs2 SyProofs SyProofs2 SatProofs GadgetModel GadgetSpec GadgetProofs SpongeModel StageModel StageSpec StageProofs RegModel RegSpec RegProofs RegProofs2
  EndoSpec EscModel ParSpec ParProofs ParProofs2 PcdModel PcdSpec PcdProofs2 RecModel RecSpec CompileModel CompileSpec CompileSpec2 CompileProofs CompileProofs2 RecStageModel RecStageSpec RecStageProofs
  AppModel AppSpec AppProofs Props_Reg Props_Stage Props_App Props_Comp Props_Step
  VerifyModel VerifySpec VerifySpec2 VerifyProofs VerifyProofs2 VerifyProofs3 VerifyProofs4 VerifyProofs8 NestedModel NestedSpec.
Import ListNotations.
Local Open Scope nat_scope.

(** ** the code does not depend on its wires *)
Section Gen.
  Context {F : Field}.
  Lemma load_point_p {W1 W2 : Type} (RW : W1 -> W2 -> Prop) o1 o2 l l' j : RW o1 o2 -> Forall2 RW l l' ->
    ptrel (F := F) RW true (load_point o1 l j) (load_point o2 l' j).
  Proof. intros Ho H. split; cbn [px py load_point]; apply at_p; assumption. Qed.
  Lemma load_points_p {W1 W2 : Type} (RW : W1 -> W2 -> Prop) o1 o2 l l' o len : RW o1 o2 -> Forall2 RW l l' ->
    Forall2 (ptrel (F := F) RW true) (load_points o1 l o len) (load_points o2 l' o len).
  Proof. intros Ho H. unfold load_points. generalize (seq 0 len) as s. induction s; constructor; auto. now apply load_point_p. Qed.
  Lemma s_esc_step_gen zeta np i k step : generic_staged (F := F) (s_esc_step zeta np i k step).
  Proof.
    intros W1 W2 o1 o2 RW gs1 gs2 Ho Hg. unfold s_esc_step. cbv zeta. pose proof (stage_of_p RW gs1 gs2 0 Hg) as H0. pose proof (stage_of_p RW gs1 gs2 1 Hg) as H1.
    eapply gbind_p.
    - apply esc_step_p; [exact Ho|reflexivity|split; [exact H0|reflexivity]|apply load_point_p; assumption|apply load_points_p; assumption|apply load_points_p; assumption].
    - intros _ _ _. constructor. constructor.
  Qed.
End Gen.

(** ** stage wires and points *)
Section Wires.
  Context {F : Field}.
  Local Notation cs := (coords (F := F)).
  Lemma coords_length (ps : list (F * F)) : length (cs ps) = 2 * length ps.
  Proof. unfold coords. induction ps as [|p ps IH]; [reflexivity|]. cbn [flat_map app length]. rewrite IH. lia. Qed.
  Lemma coords_nth (ps : list (F * F)) j d : j < length ps ->
    nth (2 * j) (cs ps) d = fst (nth j ps (d, d)) /\ nth (2 * j + 1) (cs ps) d = snd (nth j ps (d, d)).
  Proof.
    revert j. induction ps as [|p ps IH]; intros j H; [cbn in H; lia|]. destruct j as [|j]; [split; reflexivity|]. cbn [length] in H.
    replace (2 * S j) with (S (S (2 * j))) by lia. replace (S (S (2 * j)) + 1) with (S (S (2 * j + 1))) by lia. apply IH. lia.
  Qed.
  Lemma load_back (ps : list (F * F)) j : j < length ps -> load_point (F := F) f1 (cs ps) j = pwir (nth j ps (f1, f1)).
  Proof. intros H. destruct (coords_nth ps j f1 H) as [E1 E2]. unfold load_point, at_wire. now rewrite E1, E2. Qed.
  Lemma loads_back (a b c : list (F * F)) : load_points (F := F) f1 (cs (a ++ b ++ c)) (length a) (length b) = map pwir b.
  Proof.
    unfold load_points. apply nth_ext with (d := pwir (f1, f1)) (d' := pwir (f1, f1)); [now rewrite !map_length, seq_length|].
    rewrite map_length, seq_length. intros j Hj. rewrite nth_map_seq by exact Hj. rewrite load_back by (rewrite !app_length; lia).
    rewrite app_nth2_plus, app_nth1 by exact Hj. symmetry. apply map_nth.
  Qed.
  (** every list of the right length is one of coordinates *)
  Lemma coords_onto : forall m (l : list F), length l = 2 * m -> exists ps, length ps = m /\ l = cs ps.
  Proof.
    induction m as [|m IH]; intros l H.
    - destruct l; [|discriminate]. exists []. auto.
    - destruct l as [|x [|y l]]; cbn [length] in H; try lia. destruct (IH l ltac:(lia)) as (ps & L & ->). exists ((x, y) :: ps). split; [cbn [length]; lia|reflexivity].
  Qed.
  (** the code on stage wires is the step on the points they stand for *)
  Lemma esc_holds_iff zeta np i k s (w : esc_wires F) : length (wi_inputs w) = i -> length (wi_ints w) = k ->
    (esc_holds zeta np w s <-> holds (s_esc_step zeta np i k s F f1 [wi_bits w; coords (wi_initial w :: wi_inputs w ++ wi_ints w)]) []).
  Proof.
    intros Li Lk. unfold s_esc_step. cbv zeta. rewrite holds_bind. cbn [stage_of nth].
    rewrite load_back by (cbn [length]; lia). cbn [nth].
    assert (E1 : load_points (F := F) f1 (cs (wi_initial w :: wi_inputs w ++ wi_ints w)) 1 i = map pwir (wi_inputs w)).
    { rewrite <- Li. exact (loads_back [wi_initial w] (wi_inputs w) (wi_ints w)). }
    assert (E2 : load_points (F := F) f1 (cs (wi_initial w :: wi_inputs w ++ wi_ints w)) (1 + i) k = map pwir (wi_ints w)).
    { rewrite <- Li, <- Lk. pose proof (loads_back (wi_initial w :: wi_inputs w) (wi_ints w) []) as X. rewrite app_nil_r in X. exact X. }
    rewrite E1, E2. unfold esc_holds. split; [intros H; exists tt; split; [exact H|reflexivity]|intros ([] & H & _); exact H].
  Qed.
End Wires.

Lemma Forall2_impl_in {A B : Type} (P Q : A -> B -> Prop) l m : Forall2 P l m -> (forall a b, In a l -> P a b -> Q a b) -> Forall2 Q l m.
Proof. induction 1 as [|a b l m H _ IH]; intros X; constructor; [apply X; [now left|exact H]|apply IH; intros; apply X; [now right|assumption]]. Qed.

(** ** confined polynomials *)
Section Confined.
  Variable F : Field.
  Variables (n : nat) (r : poly F) (ys : list F).
  Hypothesis W : wf 0 (4 * n) r.
  Hypothesis Nd : NoDup ys.
  Hypothesis Ly : 4 * n <= length ys.
  Lemma unmasked_zero m : 1 <= fst m -> fst m + snd m <= n -> (forall y, unmasked n (Some m) r y) ->
    forall e, e < 4 * n -> active (fst m) (snd m) (gate_of n e) = false -> coeff_at r e = f0.
  Proof.
    destruct m as [skip num]. cbn [fst snd]. intros H1 H2 U.
    assert (E : mask_new n skip num = Some (skip, num)).
    { unfold mask_new. destruct (Nat.eqb_spec skip 0); [lia|]. destruct (Nat.ltb_spec n (skip + num)); [lia|reflexivity]. }
    apply (proj2 (C24_mask_enforces F n skip num (skip, num) r E W) ys Nd Ly). intros y _. destruct (U y) as (m & s & Em & Es & V). injection Em as <-. now exists s.
  Qed.
  Lemma confined_ok vals i v : nth_error vals i = Some v -> (forall y, unmasked n (stage_mask n (rev (firstn i vals)) v) r y) -> confined n vals i r.
  Proof.
    intros Ev U e He Hne. destruct (stage_mask n (rev (firstn i vals)) v) as [m|] eqn:Em.
    2:{ destruct (U f0) as (m & s & E & _). discriminate. }
    pose proof (mask_new_inv _ _ _ _ Em) as [B1 B2].
    assert (m = (stage_start vals i, (v + 1) / 2)) as ->.
    { unfold stage_mask, mask_new in Em. rewrite skip_start, ceil2 in Em. destruct (_ =? 0); [discriminate|]. destruct (_ <? _); [discriminate|]. congruence. }
    cbn [fst snd] in *. destruct (active (stage_start vals i) ((v + 1) / 2) (gate_of n e)) eqn:A; [|exfalso; exact (Hne (unmasked_zero (stage_start vals i, (v + 1) / 2) B1 B2 U e He A))].
    unfold active in A. apply orb_true_iff in A. destruct A as [A|A]; [left; now apply Nat.eqb_eq|]. right. apply andb_true_iff in A. destruct A as [A1 A2].
    apply Nat.leb_le in A1. apply Nat.ltb_lt in A2. exists v. split; [exact Ev|lia].
  Qed.
  Lemma behind_ok vals v : (forall y, unmasked n (stage_final_mask n (rev vals) v) r y) -> behind n (vals ++ [v]) r.
  Proof.
    intros U e He Hne. destruct (stage_final_mask n (rev vals) v) as [m|] eqn:Em.
    2:{ destruct (U f0) as (m & s & E & _). discriminate. }
    pose proof (mask_final_inv _ _ _ Em) as [B1 B2].
    assert (Es : skip_gates (rev vals) + stage_gates v = stage_start (vals ++ [v]) (length (vals ++ [v]))).
    { rewrite skip_gates_rev, ceil2. unfold stage_start. rewrite firstn_all, map_app, list_sum_app. cbn [map list_sum fold_right]. unfold list_sum. lia. }
    unfold stage_final_mask in Em. rewrite Es in Em.
    assert (fst m = stage_start (vals ++ [v]) (length (vals ++ [v]))) as <-.
    { unfold mask_new_final in Em. destruct (_ =? 0); [discriminate|]. destruct (_ <? _); [discriminate|]. injection Em as <-. reflexivity. }
    destruct (active (fst m) (snd m) (gate_of n e)) eqn:A; [|exfalso; exact (Hne (unmasked_zero _ B1 B2 U e He A))].
    unfold active in A. apply orb_true_iff in A. destruct A as [A|A]; [left; now apply Nat.eqb_eq|]. right. apply andb_true_iff in A. now apply Nat.leb_le.
  Qed.
End Confined.

Lemma mask_in k id : (match id with NStep s => s < k | _ => True end) -> In id (ncid_all k).
Proof. unfold ncid_all. intros H. apply in_or_app. destruct id; [left; apply in_map, in_seq; lia|right; cbn; tauto..]. Qed.

(** a step publishes nothing *)
Lemma no_outs (F : Field) (zeta : F) np i k s stages body outs : sprog stages (s_esc_step zeta np i k s) = Some (body, outs) -> outs = [].
Proof.
  assert (X : forall (A B : Type) (p : GadgetModel.G F wref A) m (x : B) y, snd (compile (gbind p (fun _ => GRet x)) m) = Some y -> y = x).
  { clear. intros A B p. induction p as [a| |w k IH|w k IH|l k IH|l k IH]; intros m x y; cbn [gbind compile snd]; try discriminate.
    - congruence.
    - destruct (match w with Some t => t | None => (f0, f0, f0, f0) end) as [[[a' b'] c'] d']. cbn [snd]. apply IH.
    - apply IH.
    - apply IH.
    - apply IH. }
  intros S. unfold sprog in S. destruct (add_stages 4 _ PEnd) as [[g q]|] in S; [|discriminate]. unfold s_esc_step in S at 1. cbv zeta in S.
  match type of S with context[compile (gbind ?p ?f) ?m] => destruct (snd (compile (gbind p f) m)) as [res|] eqn:Er; [|discriminate] end.
  apply X in Er. subst res. destruct (add_stages _ _ _) as [[g' q']|] in S; [|discriminate]. cbn [map] in S. congruence.
Qed.

(** ** the nested registry *)
Section Registry.
  Variable F : Field.
  Add Field FFnr : (f_theory F).
  Open Scope f_scope.
  Variables (T : TwoAdic F) (lg : nat) (repr : F -> N).
  Variables (hash : list N -> list N) (to_bytes : F -> list N) (from_uniform : list N -> F) (f_of_u64 : N -> F).
  Hypothesis S32 : (ta_S T <= 32)%nat.
  Variables (b : builder F) (r : registry F).
  Hypothesis Hf : finalize F T lg repr hash to_bytes from_uniform f_of_u64 b = Some r.
  Let k2 := log2_circuits F b.
  Hypothesis inj : forall w w' : F, w ^ (2 ^ k2) = 1 -> w' ^ (2 ^ k2) = 1 -> omega_key F repr w = omega_key F repr w' -> w = w'.
  Local Notation n := (2 ^ lg)%nat.
  Local Notation NC := (4 * 2 ^ lg)%nat.
  Local Notation key := (rg_key F r).
  Local Notation syr := (syr F T lg repr r).
  Variables (x0 x1 x2 x3 yc onec hc : F) (zeta : F) (nbits np i k pts : nat).
  Hypothesis Hi : inputs_len np = Some i.
  Hypothesis Hk : num_steps np = Some k.
  Hypothesis Hp : pts_values np = Some pts.
  Local Notation nobj := (nested_obj zeta x0 x1 x2 x3 yc onec hc lg nbits np).
  Hypothesis slots : forall id, In id (ncid_all k) -> exists o, nobj id = Some o /\ nth_error (reg_order b) (nested_slot k id) = Some o.
  Hypothesis Cap : (k + 11 <= NC)%nat.
  Let Hn : (0 < n)%nat. Proof. pose proof (Nat.pow_nonzero 2 lg); lia. Qed.

  Lemma pts_is : pts = (2 * (1 + i + k))%nat.
  Proof. unfold pts_values in Hp. rewrite Hi, Hk in Hp. congruence. Qed.

  (** the objects *)
  Lemma step_obj s : (s < k)%nat -> nobj (NStep s) = multi_obj x0 x1 x2 x3 yc onec hc lg (esc_stages nbits pts) (s_esc_step zeta np i k s).
  Proof. intros Hs. unfold nested_obj. rewrite Hi, Hk, Hp. unfold step_new. rewrite Hk. destruct (Nat.ltb_spec s k); [reflexivity|lia]. Qed.
  Lemma step_slot s : (s < k)%nat ->
    exists body outs, sprog (esc_stages nbits pts) (s_esc_step zeta np i k s) = Some (body, outs) /\ fits n body outs /\ outs = [] /\ owned (orchestrate body outs) [] <> None /\
      forall y, exists q, sy_eval n NC body outs y (floor_plan (sizes (orchestrate body outs))) = Some q /\ wf 0 NC q /\
        circuit_y F T lg repr r (N.of_nat s) y = Some (syr y s) /\ wf 0 NC (syr y s) /\ keyed n (key * y ^ (NC - 1)) (syr y s) q.
  Proof.
    intros Hs. destruct (slots (NStep s) (mask_in k (NStep s) Hs)) as (o & Eo & En). rewrite step_obj in Eo by exact Hs. cbn [nested_slot] in En.
    unfold multi_obj in Eo. destruct (sprog _ _) as [[body outs]|] eqn:S; [|discriminate]. cbn [obind fst snd] in Eo. exists body, outs. split; [reflexivity|].
    destruct (staged_owned _ _ body outs (s_esc_step_gen zeta np i k s) S) as [O _].
    pose proof (no_outs F zeta np i k s _ body outs S) as E.
    destruct (circ_slot F T lg repr hash to_bytes from_uniform f_of_u64 S32 b r Hf inj x0 x1 x2 x3 yc onec hc _ o body outs En Eo O) as [Fi H]. auto.
  Qed.
  Lemma nmask_slot id mk : In id (ncid_all k) -> nobj id = mask_obj lg mk -> (forall m, mk = Some m -> 1 <= fst m /\ fst m + snd m <= n)%nat ->
    exists m, mk = Some m /\ (1 <= fst m)%nat /\ (fst m + snd m <= n)%nat /\ forall y,
      exists q, mask_project n m y = Some q /\ wf 0 NC q /\
        circuit_y F T lg repr r (N.of_nat (nested_slot k id)) y = Some (syr y (nested_slot k id)) /\
        wf 0 NC (syr y (nested_slot k id)) /\ keyed n (key * y ^ (NC - 1)) (syr y (nested_slot k id)) q.
  Proof.
    intros I E B. destruct (slots id I) as (o & Eo & En). rewrite E in Eo. unfold mask_obj in Eo. destruct mk as [m|]; [|discriminate]. cbn [option_map] in Eo. injection Eo as <-.
    destruct (B m eq_refl) as [B1 B2]. exists m. split; [reflexivity|]. split; [exact B1|]. split; [exact B2|]. intros y.
    apply (mask_slot F T lg repr hash to_bytes from_uniform f_of_u64 S32 b r Hf inj); auto.
  Qed.
  Let SM : forall pa v m, stage_mask n pa v = Some m -> (1 <= fst m /\ fst m + snd m <= n)%nat.
  Proof. intros pa v m; apply mask_new_inv. Qed.
  Let SF : forall pa v m, stage_final_mask n pa v = Some m -> (1 <= fst m /\ fst m + snd m <= n)%nat.
  Proof. intros pa v m; apply mask_final_inv. Qed.

  Variable rp : nrxid -> poly F.
  Hypothesis Wp : forall c, wf 0 NC (rp c).

  (** ** soundness *)
  Section Sound.
    Variable ys : list F.
    Hypothesis Nd : NoDup ys.
    Hypothesis Ly : (NC <= length ys)%nat.
    Hypothesis claims : forall y, In y ys -> exists zs, NoDup zs /\ (NC <= length zs)%nat /\
      forall z, In z zs -> Forall (nclaim_holds n k z (syr y)) (nested_own 1 k rp ++ nested_bond 0 k [rp]).

    Lemma nclaim_in y zc c : Forall (nclaim_holds n k zc (syr y)) (nested_own 1 k rp ++ nested_bond 0 k [rp]) ->
      In c (nested_own 1 k rp) \/ In c (nested_bond 0 k [rp]) -> nclaim_holds n k zc (syr y) c.
    Proof. intros HF Hin. rewrite Forall_forall in HF. apply HF, in_or_app, Hin. Qed.

    Lemma nbond_accepted id mk rs : In id (ncid_all k) -> nobj id = mask_obj lg mk -> (forall m, mk = Some m -> 1 <= fst m /\ fst m + snd m <= n)%nat ->
      (length rs <= NC)%nat -> Forall (wf 0 NC) rs -> In (NBond id rs, 0 : F) (nested_bond (0 : F) k [rp]) ->
      forall q, In q rs -> forall y, unmasked n mk q y.
    Proof.
      intros I E B Lb Wr Hin q Hq. destruct (nmask_slot id mk I E B) as ([skip num] & -> & B1 & B2 & Hy). cbn [fst snd] in B1, B2.
      destruct (In_nth _ _ [] Hq) as (j & Hj & Ej). rewrite Forall_forall in Wr.
      apply (mask_sound F n key skip num q ys B1 B2 (Wr q Hq) Nd Ly).
      intros y Iy. destruct (Hy y) as (m & Em & _ & _ & _ & Km). exists m, (syr y (nested_slot k id)). split; [exact Em|]. split; [exact Km|].
      destruct (claims y Iy) as (zs & Nz & Lz & Hz).
      pose proof (bond_split F n rs (syr y (nested_slot k id)) zs Nz ltac:(lia)) as X.
      rewrite <- Ej. apply X; [|exact Hj]. intros z Iz. exact (nclaim_in y z _ (Hz z Iz) (or_intror Hin)).
    Qed.
    Lemma steps_sum s : exists q, wf 0 NC q /\ forall e, coeff_at q e = lsum (map (fun r => coeff_at r e) [rp (NrStep s); rp NrEndoscalar; rp NrPoints]).
    Proof.
      destruct (sum_polys_ok F n [rp (NrStep s); rp NrEndoscalar; rp NrPoints]) as (q & _ & W & C); [discriminate|repeat constructor; apply Wp|]. exists q. auto.
    Qed.
    Lemma own_accepted s body outs : (s < k)%nat -> sprog (esc_stages nbits pts) (s_esc_step zeta np i k s) = Some (body, outs) ->
      fits n body outs /\ outs = [] /\ exists q, wf 0 NC q /\ combined q (rp (NrStep s)) [rp NrEndoscalar; rp NrPoints] /\ accepted n q body outs [] ys.
    Proof.
      intros Hs S. destruct (step_slot s Hs) as (bo & ou & S' & Ft & Eo & O & Hy). rewrite S in S'. injection S' as <- <-.
      split; [exact Ft|]. split; [exact Eo|]. destruct (steps_sum s) as (q & Wq & Cq). exists q. split; [exact Wq|]. split.
      { intros e. rewrite Cq. cbn [map lsum fold_right length fsum nth]. ring. }
      destruct Ft as [Fg Fc]. apply (keyed_sound F n key body outs [] q ys Fg Fc O Wq ltac:(now rewrite Eo) Nd Ly).
      intros y Iy. destruct (claims y Iy) as (zs & Nz & Lz & Hz). exists zs. split; [exact Nz|]. split; [exact Lz|]. intros z Iz.
      destruct (Hy y) as (m & Em & Wm & _ & _ & Km). exists m, (syr y s). split; [exact Em|]. split; [exact Km|].
      assert (Hin : In (NInt (NStep s) [rp (NrStep s); rp NrEndoscalar; rp NrPoints], 1 : F) (nested_own 1 k rp)).
      { unfold nested_own. apply (in_map (fun s => (NInt (NStep s) [rp (NrStep s); rp NrEndoscalar; rp NrPoints], 1 : F))), in_seq. lia. }
      pose proof (nclaim_in y z _ (Hz z Iz) (or_introl Hin)) as V. unfold nclaim_holds in V. cbn [fst snd na_coeff nb_coeff nested_slot] in V.
      rewrite ky_ok. transitivity (1 : F); [|cbn [rev app peval]; ring]. rewrite <- V. unfold circ_sum. apply fsum_ext. intros e _. rewrite !Cq. reflexivity.
    Qed.
    Lemma bridge_masks : Forall2 (fun id c => forall y, unmasked n (stage_mask n (rev (firstn id bridge_values)) (nth id bridge_values 0%nat)) (rp c) y) (seq 0 8) bridges.
    Proof.
      assert (X : forall id rxid pa v, In id (ncid_all k) -> nobj id = mask_obj lg (stage_mask n pa v) -> In (NBond id [rp rxid], 0 : F) (nested_bond 0 k [rp]) -> forall y, unmasked n (stage_mask n pa v) (rp rxid) y).
      { intros id rxid pa v I E Hin. apply (nbond_accepted id _ [rp rxid] I E (SM _ _)); [cbn [length]; lia|repeat constructor; apply Wp|exact Hin|now left]. }
      assert (Z : forall id, nobj id = match id with
        | NBridgePreamble => mask_obj lg (stage_mask n [] 26) | NBridgeSPrime => mask_obj lg (stage_mask n [26] 4)
        | NBridgeInnerError => mask_obj lg (stage_mask n [4; 26] 4) | NBridgeOuterError => mask_obj lg (stage_mask n [4; 4; 26] 2)
        | NBridgeAB => mask_obj lg (stage_mask n [2; 4; 4; 26] 4) | NBridgeQuery => mask_obj lg (stage_mask n [4; 2; 4; 4; 26] 4)
        | NBridgeF => mask_obj lg (stage_mask n [4; 4; 2; 4; 4; 26] 2) | NBridgeEval => mask_obj lg (stage_mask n [2; 4; 4; 2; 4; 4; 26] 2)
        | _ => nobj id end%nat).
      { intros id. unfold nested_obj. rewrite Hi, Hk, Hp. destruct id; reflexivity. }
      unfold bridges. cbn [seq]. repeat apply Forall2_cons; [..|apply Forall2_nil].
      - apply (X NBridgePreamble); [now apply mask_in|apply Z|cbn [nested_bond map]; cbn; tauto].
      - apply (X NBridgeSPrime); [now apply mask_in|apply Z|cbn [nested_bond map]; cbn; tauto].
      - apply (X NBridgeInnerError); [now apply mask_in|apply Z|cbn [nested_bond map]; cbn; tauto].
      - apply (X NBridgeOuterError); [now apply mask_in|apply Z|cbn [nested_bond map]; cbn; tauto].
      - apply (X NBridgeAB); [now apply mask_in|apply Z|cbn [nested_bond map]; cbn; tauto].
      - apply (X NBridgeQuery); [now apply mask_in|apply Z|cbn [nested_bond map]; cbn; tauto].
      - apply (X NBridgeF); [now apply mask_in|apply Z|cbn [nested_bond map]; cbn; tauto].
      - apply (X NBridgeEval); [now apply mask_in|apply Z|cbn [nested_bond map]; cbn; tauto].
    Qed.

    Let vals := [nbits; pts].
    Lemma obj_masks : nobj NEndoscalar = mask_obj lg (stage_mask n [] nbits) /\ nobj NPoints = mask_obj lg (stage_mask n [nbits] pts) /\
      nobj NPointsFinal = mask_obj lg (stage_final_mask n [nbits] pts).
    Proof. unfold nested_obj. rewrite Hi, Hk, Hp. auto. Qed.
    Lemma endo_masked y : unmasked n (stage_mask n [] nbits) (rp NrEndoscalar) y.
    Proof.
      apply (nbond_accepted NEndoscalar _ [rp NrEndoscalar] (mask_in k NEndoscalar I) (proj1 obj_masks) (SM _ _)); [cbn [length]; lia|repeat constructor; apply Wp| |now left].
      cbn [nested_bond map]. cbn. tauto.
    Qed.
    Lemma points_masked y : unmasked n (stage_mask n [nbits] pts) (rp NrPoints) y.
    Proof.
      apply (nbond_accepted NPoints _ [rp NrPoints] (mask_in k NPoints I) (proj1 (proj2 obj_masks)) (SM _ _)); [cbn [length]; lia|repeat constructor; apply Wp| |now left].
      cbn [nested_bond map]. cbn. tauto.
    Qed.
    Lemma final_masked s y : (s < k)%nat -> unmasked n (stage_final_mask n [nbits] pts) (rp (NrStep s)) y.
    Proof.
      intros Hs. assert (Ef : flat_map (fun s => map (fun p => p (NrStep s)) [rp]) (seq 0 k) = map (fun s => rp (NrStep s)) (seq 0 k)).
      { clear. generalize 0%nat. induction k as [|k' IH]; intros o; [reflexivity|]. cbn [seq flat_map map app]. f_equal; apply IH. }
      apply (nbond_accepted NPointsFinal _ (map (fun s => rp (NrStep s)) (seq 0 k)) (mask_in k NPointsFinal I) (proj2 (proj2 obj_masks)) (SF _ _)).
      - rewrite map_length, seq_length. lia.
      - apply Forall_forall. intros q Hq. apply in_map_iff in Hq. destruct Hq as (s' & <- & _). apply Wp.
      - rewrite <- Ef. unfold nested_bond. right. right. left. reflexivity.
      - apply (in_map (fun s => rp (NrStep s))), in_seq. lia.
    Qed.
    Lemma nested_sound : exists w, wires_sized nbits i k w /\ esc_carried n nbits pts (rp NrEndoscalar) (rp NrPoints) w /\
      (forall s, (s < k)%nat -> esc_holds zeta np w s /\ behind n vals (rp (NrStep s))) /\
      confined n vals 0 (rp NrEndoscalar) /\ confined n vals 1 (rp NrPoints) /\
      Forall2 (fun j c => confined n bridge_values j (rp c)) (seq 0 8) bridges.
    Proof.
      set (stages := esc_stages nbits pts).
      destruct (coords_onto (1 + i + k) (stage_values (poly_wires n (rp NrPoints)) stages 1)) as (ps & Lp & Ep).
      { rewrite values_length. cbn [stages esc_stages nth snd whole]. apply pts_is. }
      destruct ps as [|p0 ps]; [cbn [length] in Lp; lia|]. cbn [length] in Lp.
      exists (mk_wires (stage_values (poly_wires n (rp NrEndoscalar)) stages 0) p0 (firstn i ps) (skipn i ps)).
      assert (Sz : wires_sized nbits i k (mk_wires (stage_values (poly_wires n (rp NrEndoscalar)) stages 0) p0 (firstn i ps) (skipn i ps))).
      { split; [apply values_length|]. cbn [wi_inputs wi_ints]. rewrite firstn_length, skipn_length. lia. }
      split; [exact Sz|]. split.
      { split; [reflexivity|]. cbn [wi_initial wi_inputs wi_ints]. rewrite firstn_skipn. exact Ep. }
      split; [|split; [|split]].
      - intros s Hs. split.
        2:{ apply (behind_ok F n (rp (NrStep s)) ys (Wp _) Nd Ly [nbits] pts). intros y. now apply final_masked. }
        apply (esc_holds_iff zeta np i k s); [apply Sz|apply Sz|].
        destruct (step_slot s Hs) as (body & outs & S & _ & _ & _ & _).
        destruct (own_accepted s body outs Hs S) as (Ft & -> & q & Wq & Cq & A).
        destruct (C52_sound F n stages (s_esc_step zeta np i k s) body [] [] (rp (NrStep s)) q [rp NrEndoscalar; rp NrPoints] ys) as (res & Hr & Er); auto.
        + discriminate.
        + apply s_esc_step_gen.
        + apply Forall_forall. intros y _. apply final_masked. exact Hs.
        + intros [|[|j]] Hj; [..|cbn [length stages esc_stages] in Hj; lia]; apply Forall_forall; intros y _; [apply endo_masked|apply points_masked].
        + destruct res; [|discriminate]. cbn [length stages esc_stages seq map nth] in Hr. fold stages in Hr. rewrite Ep in Hr.
          cbn [wi_bits wi_initial wi_inputs wi_ints]. rewrite firstn_skipn. exact Hr.
      - apply (confined_ok F n (rp NrEndoscalar) ys (Wp _) Nd Ly vals 0 nbits eq_refl). exact endo_masked.
      - apply (confined_ok F n (rp NrPoints) ys (Wp _) Nd Ly vals 1 pts eq_refl). exact points_masked.
      - pose proof bridge_masks as B. clear -B Wp Nd Ly. revert B.
        assert (X : forall j v c, nth_error bridge_values j = Some v -> (forall y, unmasked n (stage_mask n (rev (firstn j bridge_values)) (nth j bridge_values 0%nat)) (rp c) y) -> confined n bridge_values j (rp c)).
        { intros j v c E U. apply (confined_ok F n (rp c) ys (Wp _) Nd Ly bridge_values j v E). rewrite (nth_error_nth _ _ _ E) in U. exact U. }
        assert (Y : forall j v c, nth_error bridge_values j = Some v -> (forall y, unmasked n (stage_mask n (rev (firstn j bridge_values)) (nth j bridge_values 0%nat)) (rp c) y) -> confined n bridge_values j (rp c)) by exact X.
        intros B. apply Forall2_impl_in with (1 := B). intros j c Hj U.
        destruct (nth_error bridge_values j) as [v|] eqn:E; [exact (Y j v c E U)|]. apply nth_error_None in E. apply in_seq in Hj. cbn in E. lia.
    Qed.
  End Sound.

  (** ** completeness *)
  Section Complete.
    Hypothesis C0 : forall c, coeff_at (rp c) 0 = 0.
    Lemma nint_complete s q y z : (s < k)%nat -> multi_passes n (esc_stages nbits pts) (s_esc_step zeta np i k s) [] (rp (NrStep s)) q [rp NrEndoscalar; rp NrPoints] ->
      nclaim_holds n k z (syr y) (NInt (NStep s) [rp (NrStep s); rp NrEndoscalar; rp NrPoints], 1).
    Proof.
      intros Hs (_ & _ & Wq & Cq & _ & bo & ou & S & Lo & Pa).
      destruct (step_slot s Hs) as (body & outs & S' & _ & _ & _ & Hy). rewrite S in S'. injection S' as <- <-. destruct (Hy y) as (m & Em & Wm & _ & _ & Km).
      assert (Z : key * coeff_at q 0 = 0). { rewrite Cq. cbn [length fsum nth]. rewrite !C0. ring. }
      pose proof (keyed_complete F n key bo ou [] q m (syr y s) y z Hn Wq Wm Em Km Z (Pa y z)) as V. rewrite ky_ok in V.
      unfold nclaim_holds. cbn [fst snd na_coeff nb_coeff nested_slot]. transitivity (peval (1 :: rev []) y : F); [|cbn [rev app peval]; ring]. rewrite <- V. unfold circ_sum. apply fsum_ext. intros e _.
      rewrite !Cq. cbn [map lsum fold_right length fsum nth]. ring.
    Qed.
    Lemma nbond_complete id mk rs y z : In id (ncid_all k) -> nobj id = mask_obj lg mk -> (forall m, mk = Some m -> 1 <= fst m /\ fst m + snd m <= n)%nat ->
      (forall q, In q rs -> wf 0 NC q /\ coeff_at q 0 = 0 /\ unmasked n mk q y) -> nclaim_holds n k z (syr y) (NBond id rs, 0).
    Proof.
      intros I E B Hq. destruct (nmask_slot id mk I E B) as (m & -> & _ & _ & Hy). destruct (Hy y) as (q & Eq & Wq & _ & _ & Km).
      unfold nclaim_holds. cbn [fst snd na_coeff nb_coeff]. apply (bond_join F n rs (syr y (nested_slot k id)) z). intros j Hj.
      destruct (Hq _ (nth_In rs [] Hj)) as (W & Z & U).
      apply (mask_complete F n key m (nth j rs []) q (syr y (nested_slot k id)) y Hn W Wq Eq Km); [rewrite Z; ring|exact U].
    Qed.
    Hypothesis Msteps : forall s, (s < k)%nat -> exists q, multi_passes n (esc_stages nbits pts) (s_esc_step zeta np i k s) [] (rp (NrStep s)) q [rp NrEndoscalar; rp NrPoints].
    Hypothesis Me : forall y, unmasked n (stage_mask n [] nbits) (rp NrEndoscalar) y.
    Hypothesis Mp : forall y, unmasked n (stage_mask n [nbits] pts) (rp NrPoints) y.
    Hypothesis Mb : forall j y, (j < 8)%nat -> unmasked n (stage_mask n (rev (firstn j bridge_values)) (nth j bridge_values 0%nat)) (rp (nth j bridges NrPreamble)) y.
    Lemma nested_claims y z : Forall (nclaim_holds n k z (syr y)) (nested_own 1 k rp ++ nested_bond 0 k [rp]).
    Proof.
      assert (One : forall id pa v c, In id (ncid_all k) -> nobj id = mask_obj lg (stage_mask n pa v) -> unmasked n (stage_mask n pa v) (rp c) y -> nclaim_holds n k z (syr y) (NBond id [rp c], 0)).
      { intros id pa v c I E U. apply (nbond_complete id _ [rp c] y z I E (SM _ _)). intros q [<-|[]]. auto. }
      apply Forall_app. split.
      - unfold nested_own. apply Forall_forall. intros cl Hc. apply in_map_iff in Hc. destruct Hc as (s & <- & Hs). apply in_seq in Hs.
        destruct (Msteps s ltac:(lia)) as (q & M). apply (nint_complete s q y z ltac:(lia) M).
      - unfold nested_bond. cbn [map]. repeat apply Forall_cons; [..|apply Forall_nil].
        + apply (One NEndoscalar _ _ _ (mask_in k NEndoscalar I) (proj1 obj_masks)), Me.
        + apply (One NPoints _ _ _ (mask_in k NPoints I) (proj1 (proj2 obj_masks))), Mp.
        + apply (nbond_complete NPointsFinal _ _ y z (mask_in k NPointsFinal I) (proj2 (proj2 obj_masks)) (SF _ _)).
          intros q Hq. apply in_flat_map in Hq. destruct Hq as (s & Hs & [<-|[]]). apply in_seq in Hs. destruct (Msteps s ltac:(lia)) as (q & _ & _ & _ & _ & Fc & _).
          split; [apply Wp|]. split; [apply C0|]. exact (Fc y).
        + eapply (One NBridgePreamble _ _ _ (mask_in k NBridgePreamble I)), (Mb 0 y ltac:(lia)). unfold nested_obj; rewrite Hi, Hk, Hp; reflexivity.
        + eapply (One NBridgeSPrime _ _ _ (mask_in k NBridgeSPrime I)), (Mb 1 y ltac:(lia)). unfold nested_obj; rewrite Hi, Hk, Hp; reflexivity.
        + eapply (One NBridgeInnerError _ _ _ (mask_in k NBridgeInnerError I)), (Mb 2 y ltac:(lia)). unfold nested_obj; rewrite Hi, Hk, Hp; reflexivity.
        + eapply (One NBridgeOuterError _ _ _ (mask_in k NBridgeOuterError I)), (Mb 3 y ltac:(lia)). unfold nested_obj; rewrite Hi, Hk, Hp; reflexivity.
        + eapply (One NBridgeAB _ _ _ (mask_in k NBridgeAB I)), (Mb 4 y ltac:(lia)). unfold nested_obj; rewrite Hi, Hk, Hp; reflexivity.
        + eapply (One NBridgeQuery _ _ _ (mask_in k NBridgeQuery I)), (Mb 5 y ltac:(lia)). unfold nested_obj; rewrite Hi, Hk, Hp; reflexivity.
        + eapply (One NBridgeF _ _ _ (mask_in k NBridgeF I)), (Mb 6 y ltac:(lia)). unfold nested_obj; rewrite Hi, Hk, Hp; reflexivity.
        + eapply (One NBridgeEval _ _ _ (mask_in k NBridgeEval I)), (Mb 7 y ltac:(lia)). unfold nested_obj; rewrite Hi, Hk, Hp; reflexivity.
    Qed.
  End Complete.
End Registry.

(** ** objects *)
Section Objects.
  Variable F : Field.
  Variables (x0 x1 x2 x3 yc onec hc zeta : F) (lg nbits np : nat).
  Lemma nested_obj_is id o : nested_obj zeta x0 x1 x2 x3 yc onec hc lg nbits np id = Some o -> exists s, obj_is lg o s.
  Proof.
    assert (XM : forall mk o, mask_obj lg mk = Some o -> (forall m, mk = Some m -> 1 <= fst m /\ fst m + snd m <= 2 ^ lg) -> exists s : F -> F -> F, obj_is lg o s).
    { intros mk o' E Hm. unfold mask_obj in E. destruct mk as [m|]; [|discriminate]. cbn [option_map] in E. injection E as <-. destruct (Hm m eq_refl). now apply mask_is. }
    assert (XC : forall stages (c : staged F) o, generic_staged c -> multi_obj x0 x1 x2 x3 yc onec hc lg stages c = Some o -> exists s, obj_is lg o s).
    { intros stages c o' G E. unfold multi_obj in E. destruct (sprog stages c) as [[body outs]|] eqn:S; [|discriminate]. cbn [obind fst snd] in E.
      destruct (staged_owned stages c body outs G S) as [O Hh]. destruct (hides_split _ _ Hh) as [H1 H2]. eexists. exact (prog_cobj_is F x0 x1 x2 x3 yc onec hc lg _ _ _ E O H1 H2). }
    assert (SM : forall pa v m, stage_mask (2 ^ lg) pa v = Some m -> (1 <= fst m /\ fst m + snd m <= 2 ^ lg)) by (intros pa v m; apply mask_new_inv).
    assert (SF : forall pa v m, stage_final_mask (2 ^ lg) pa v = Some m -> (1 <= fst m /\ fst m + snd m <= 2 ^ lg)) by (intros pa v m; apply mask_final_inv).
    unfold nested_obj. destruct (inputs_len np) as [i|]; [|discriminate]. destruct (num_steps np) as [k|]; [|discriminate]. destruct (pts_values np) as [pts|]; [|discriminate].
    destruct id as [s| | | | | | | | | | |].
    { destruct (step_new np s) as [s'|]; [|discriminate]. cbn [obind]. apply XC, s_esc_step_gen. }
    all: intros E; eapply XM; [exact E|]; first [apply SM|apply SF].
  Qed.
End Objects.

(** ** the polynomials of given wires *)
Lemma choose_list {A : Type} (d : A) (P : nat -> A -> Prop) k : (forall s, s < k -> exists q, P s q) -> exists l, length l = k /\ forall s, s < k -> P s (nth s l d).
Proof.
  induction k as [|k IH]; intros H; [exists []; split; [reflexivity|intros; lia]|].
  destruct (IH ltac:(intros; apply H; lia)) as (l & L & Hl). destruct (H k ltac:(lia)) as (q & Hq). exists (l ++ [q]). split; [rewrite app_length; cbn [length]; lia|].
  intros s Hs. destruct (Nat.eq_dec s k) as [->|Ne]; [rewrite app_nth2, L, Nat.sub_diag by lia; exact Hq|rewrite app_nth1 by lia; apply Hl; lia].
Qed.
Section Build.
  Variable F : Field.
  Variables (n nbits np i k pts : nat) (zeta : F).
  Hypothesis Hn : 0 < n.
  Hypothesis Hp : pts = 2 * (1 + i + k).
  Hypothesis reg : forall s, s < k -> CompileSpec2.registered n (esc_stages nbits pts) (s_esc_step zeta np i k s).
  Hypothesis M0 : stage_mask n [] nbits <> None.
  Hypothesis M1 : stage_mask n [nbits] pts <> None.
  Hypothesis MB : forall j, j < 8 -> stage_mask n (rev (firstn j bridge_values)) (nth j bridge_values 0) <> None.
  Lemma rx_some parents v alpha (out : list F) : stage_mask n parents v <> None -> length out <= v ->
    exists q, stage_rx n parents v alpha out = Some q /\ wf 0 (4 * n) q /\ coeff_at q 0 = f0 /\ forall y, unmasked n (stage_mask n parents v) q y.
  Proof.
    intros Nm L. destruct (C23_stage_polynomial F n parents v alpha out) as [N H]. destruct (stage_rx n parents v alpha out) as [q|] eqn:E.
    - exists q. split; [reflexivity|]. destruct (H q eq_refl) as (W & _ & _ & _ & _ & Z). split; [exact W|]. split; [apply Z; lia|].
      intros y. destruct (C23_masked F n y) as [X _]. destruct (X _ _ _ _ _ E) as (m & s & A & A' & A''). exists m, s. auto.
    - exfalso. destruct (proj1 N eq_refl) as [C|C]; [lia|]. apply Nm. unfold stage_mask, mask_new. rewrite ceil2.
      destruct (_ =? 0); [reflexivity|]. destruct (Nat.ltb_spec n (skip_gates parents + (v + 1) / 2)); [reflexivity|lia].
  Qed.
  Lemma rx_carried stages j al vs (q : poly F) : snd (nth j stages (0, 0)) <= fst (nth j stages (0, 0)) -> length vs = snd (nth j stages (0, 0)) ->
    stage_rx n (rev (firstn j (map fst stages))) (fst (nth j stages (0, 0))) al vs = Some q -> stage_values (poly_wires n q) stages j = vs.
  Proof.
    intros Hw Lv E. destruct (C23_stage_polynomial F n (rev (firstn j (map fst stages))) (fst (nth j stages (0, 0))) al vs) as [_ K].
    destruct (K _ E) as (_ & Kv & _). unfold stage_values. apply nth_ext with (d := f0) (d' := f0); [now rewrite map_length, seq_length|].
    rewrite map_length, seq_length. intros m Hm. rewrite nth_map_seq by exact Hm. rewrite <- Kv.
    - unfold stage_wire, poly_wires. rewrite skip_start. destruct (Nat.even m); f_equal; lia.
    - pose proof (ceil2_bounds (fst (nth j stages (0, 0)))) as CB. rewrite ceil2 in CB. lia.
  Qed.
  Lemma nested_polys (w : esc_wires F) (ae ap : F) (bas : list F) (bvs : list (list F)) :
    wires_sized nbits i k w -> (forall s, s < k -> esc_holds zeta np w s) -> (forall j, j < 8 -> length (nth j bvs []) <= nth j bridge_values 0) ->
    exists rp : nrxid -> poly F,
      (forall c, wf 0 (4 * n) (rp c)) /\ (forall c, coeff_at (rp c) 0 = f0) /\
      stage_rx n [] nbits ae (wi_bits w) = Some (rp NrEndoscalar) /\
      stage_rx n [nbits] pts ap (coords (wi_initial w :: wi_inputs w ++ wi_ints w)) = Some (rp NrPoints) /\
      esc_carried n nbits pts (rp NrEndoscalar) (rp NrPoints) w /\
      (forall j, j < 8 -> stage_rx n (rev (firstn j bridge_values)) (nth j bridge_values 0) (nth j bas f0) (nth j bvs []) = Some (rp (nth j bridges NrPreamble))) /\
      (forall s, s < k -> exists q, multi_passes n (esc_stages nbits pts) (s_esc_step zeta np i k s) [] (rp (NrStep s)) q [rp NrEndoscalar; rp NrPoints]).
  Proof.
    intros (Lb & Li & Lk) Hs Hb. set (cs := coords (wi_initial w :: wi_inputs w ++ wi_ints w)).
    assert (Lc : length cs = pts). { unfold cs. rewrite coords_length. cbn [length]. rewrite app_length. lia. }
    destruct (rx_some [] nbits ae (wi_bits w) M0 ltac:(lia)) as (re & Ee & We & Ze & _).
    destruct (rx_some [nbits] pts ap cs M1 ltac:(lia)) as (rp & Ep & Wp & Zp & _).
    destruct (choose_list [] (fun j q => stage_rx n (rev (firstn j bridge_values)) (nth j bridge_values 0) (nth j bas f0) (nth j bvs []) = Some q /\ wf 0 (4 * n) q /\ coeff_at q 0 = f0) 8) as (lb & _ & Hlb).
    { intros j Hj. destruct (rx_some (rev (firstn j bridge_values)) (nth j bridge_values 0) (nth j bas f0) (nth j bvs []) (MB j Hj) (Hb j Hj)) as (q & A & A' & A'' & _). exists q. auto. }
    destruct (choose_list [] (fun s rf => exists q, multi_passes n (esc_stages nbits pts) (s_esc_step zeta np i k s) [] rf q [re; rp]) k) as (ls & _ & Hls).
    { intros s Hk. destruct (reg s Hk) as (body & outs & S & Ft).
      destruct (C52_complete F n (esc_stages nbits pts) (s_esc_step zeta np i k s) body outs [wi_bits w; cs] [] [ae; ap]) as (rf & q & rs & Wf & Z & Wq & Lr & _ & C & Rx & Fc & _ & Pa); auto.
      - discriminate.
      - apply s_esc_step_gen.
      - cbn [map length esc_stages whole snd]. now rewrite Lb, Lc.
      - apply esc_holds_iff; auto.
      - destruct rs as [|r1 [|r2 [|]]]; try discriminate Lr.
        destruct (Rx 0 ltac:(cbn; lia)) as [R1 _]. destruct (Rx 1 ltac:(cbn; lia)) as [R2 _]. cbn [nth esc_stages whole fst map firstn rev app] in R1, R2.
        rewrite Ee in R1. injection R1 as <-. rewrite Ep in R2. injection R2 as <-.
        exists rf, q. split; [exact Wf|]. split; [exact Z|]. split; [exact Wq|]. split; [exact C|]. split; [exact Fc|]. exists body, outs. split; [exact S|]. split; [|exact Pa].
        now rewrite (no_outs F zeta np i k s _ body outs S). }
    exists (fun c => match c with NrStep s => if s <? k then nth s ls [] else [] | NrEndoscalar => re | NrPoints => rp
      | NrPreamble => nth 0 lb [] | NrSPrime => nth 1 lb [] | NrInnerError => nth 2 lb [] | NrOuterError => nth 3 lb [] | NrAB => nth 4 lb [] | NrQuery => nth 5 lb [] | NrF => nth 6 lb [] | NrEval => nth 7 lb [] end).
    split; [|split; [|split; [exact Ee|split; [exact Ep|split; [|split]]]]].
    - intros [s| | | | | | | | | | ]; try exact We; try exact Wp; try (apply Hlb; lia).
      destruct (Nat.ltb_spec s k) as [L|L]; [|exact I]. destruct (Hls s L) as (q & W & _). exact W.
    - intros [s| | | | | | | | | | ]; try exact Ze; try exact Zp; try (apply Hlb; lia).
      destruct (Nat.ltb_spec s k) as [L|L]; [|reflexivity]. destruct (Hls s L) as (q & _ & Z & _). exact Z.
    - split; [exact (rx_carried [(nbits, nbits); (pts, pts)] 0 ae (wi_bits w) re (le_n _) Lb Ee)|exact (rx_carried [(nbits, nbits); (pts, pts)] 1 ap cs rp (le_n _) Lc Ep)].
    - intros j Hj. destruct (Hlb j Hj) as (E & _). rewrite E. do 8 (destruct j as [|j]; [reflexivity|]). lia.
    - intros s Hk. destruct (Nat.ltb_spec s k) as [L|L]; [|lia]. exact (Hls s L).
  Qed.
End Build.

Lemma coords_inj {F : Field} (ps qs : list (F * F)) : coords ps = coords qs -> ps = qs.
Proof.
  revert qs. induction ps as [|[a b] ps IH]; intros [|[c d] qs] E; cbn [coords flat_map app fst snd] in E; try discriminate; [reflexivity|].
  injection E as -> -> E. f_equal. now apply IH.
Qed.
(** the wires are determined by the two polynomials *)
Lemma carried_inj {F : Field} n nbits i k pts (re rp : poly F) (w w' : esc_wires F) : wires_sized nbits i k w -> wires_sized nbits i k w' ->
  esc_carried n nbits pts re rp w -> esc_carried n nbits pts re rp w' -> w = w'.
Proof.
  intros (_ & Li & _) (_ & Li' & _) [E1 E2] [E1' E2']. rewrite E1 in E1'. rewrite E2 in E2'. apply coords_inj in E2'. destruct w as [b p ins ts], w' as [b' p' ins' ts']. cbn [wi_bits wi_initial wi_inputs wi_ints] in *.
  injection E2' as -> E. subst b'. rewrite <- Li' in Li. apply (f_equal (firstn (length ins))) in E as E3. apply (f_equal (skipn (length ins))) in E as E4.
  rewrite Li in E3 at 2. rewrite !firstn_app, !Nat.sub_diag, !firstn_all, !firstn_O, !app_nil_r in E3. rewrite Li in E4 at 2. rewrite !skipn_app, !Nat.sub_diag, !skipn_all, !skipn_O in E4. cbn [app] in E4. congruence.
Qed.
