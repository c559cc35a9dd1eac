(** From the verifier's native claims to the checks of a recursion step. *)
From Coq Require Import List Arith NArith Bool Lia Ring Field.
From Verif Require Import FieldDef ModDef ArithModel ArithSpec ArithProofs FFTModel FFTProofs SparseModel SparseSpec SparseProofs SparseProofs2 TModel TProofs
  FoldModel FoldSpec ClaimModel CircModel CircSpec SyModel SProofs TraceModel CircProofs CircProofs2 SyProofs SyProofs2 SatProofs GadgetModel SpongeModel StageModel StageSpec StageProofs RegModel RegSpec RegProofs RegProofs2
  PcdModel PcdSpec PcdProofs2 RecModel RecSpec CompileModel CompileSpec CompileSpec2 CompileProofs2 RecStageModel RecStageSpec RecStageProofs Props_Step
  VerifyModel VerifySpec VerifyProofs VerifyProofs2 VerifyProofs3.
Import ListNotations.
Local Open Scope nat_scope.

Lemma mask_new_inv n skip num m : mask_new n skip num = Some m -> 1 <= fst m /\ fst m + snd m <= n.
Proof. unfold mask_new. destruct (Nat.eqb_spec skip 0); [discriminate|]. destruct (Nat.ltb_spec n (skip + num)); [discriminate|]. intros E. injection E as <-. cbn. lia. Qed.
Lemma mask_final_inv n skip m : mask_new_final n skip = Some m -> 1 <= fst m /\ fst m + snd m <= n.
Proof. unfold mask_new_final. destruct (Nat.eqb_spec skip 0); [discriminate|]. destruct (Nat.ltb_spec n skip); [discriminate|]. intros E. injection E as <-. cbn. lia. Qed.

Section Native.
  Variable F : Field.
  Add Field FFvn : (f_theory F).
  Open Scope f_scope.
  Variables (T : TwoAdic F) (lg : nat) (repr : F -> N).
  Variables (hash : list N -> list N) (to_bytes : F -> list N) (from_uniform : list N -> F) (f_of_u64 : N -> F).
  Hypothesis S32 : (ta_S T <= 32)%nat.
  Variables (b : builder F) (r : registry F).
  Hypothesis Hf : finalize F T lg repr hash to_bytes from_uniform f_of_u64 b = Some r.
  Let k := log2_circuits F b.
  Hypothesis inj : forall w w' : F, w ^ (2 ^ k) = 1 -> w' ^ (2 ^ k) = 1 -> omega_key F repr w = omega_key F repr w' -> w = w'.
  Local Notation n := (2 ^ lg)%nat.
  Local Notation NC := (4 * 2 ^ lg)%nat.
  Local Notation key := (rg_key F r).
  (** the wiring polynomial of slot i *)
  Definition syr (y : F) (i : nat) : poly F := match circuit_y F T lg repr r (N.of_nat i) y with Some m => m | None => [] end.

  Lemma order_is : rg_circuits F r = reg_order b.
  Proof. destruct (finalize_inv F T repr lg hash to_bytes from_uniform f_of_u64 b r Hf) as (_ & d & _ & -> & _). reflexivity. Qed.
  Lemma slot_lt i o : nth_error (reg_order b) i = Some o -> (i < 2 ^ k)%nat.
  Proof. intros E. eapply Nat.lt_le_trans; [apply nth_error_Some; rewrite E; discriminate|]. apply (log2_fits F b). Qed.

  Variables (x0 x1 x2 x3 yc onec hc : F).
  Lemma n_pos : (0 < n)%nat.
  Proof. pose proof (Nat.pow_nonzero 2 lg). lia. Qed.
  Lemma circ_slot i o body outs : nth_error (reg_order b) i = Some o -> prog_cobj x0 x1 x2 x3 yc onec hc lg body outs = Some o ->
    owned (orchestrate body outs) [] <> None ->
    fits n body outs /\ forall y, exists q, sy_eval n NC body outs y (floor_plan (sizes (orchestrate body outs))) = Some q /\ wf 0 NC q /\
      circuit_y F T lg repr r (N.of_nat i) y = Some (syr y i) /\ wf 0 NC (syr y i) /\ keyed n (key * y ^ (NC - 1)) (syr y i) q.
  Proof.
    intros E P O. unfold prog_cobj in P. cbv zeta in P.
    destruct (object_ok F x0 x1 x2 x3 yc onec hc (rk_n lg) (rk_nc lg) body outs) as [A B].
    destruct (circuit_object x0 x1 x2 x3 yc onec hc (rk_n lg) (rk_nc lg) body outs) as [segs|] eqn:C; [|discriminate].
    cbn [obind] in P. inversion P as [P']. clear P. destruct (proj1 A ltac:(discriminate)) as [G1 G2]. split; [split; assumption|]. intros y.
    specialize (B segs eq_refl). unfold object_plan in B.
    destruct (sy_ok F n body outs y G1 G2 O) as (q & Eq & W & _). exists q. split; [exact Eq|]. split; [exact W|].
    destruct (slot_y F T lg repr hash to_bytes from_uniform f_of_u64 S32 b r Hf inj i y q (slot_lt i o E)) as (m & Em & Wm & Km).
    - rewrite E, <- P'. cbn [ob_sy ob_segs]. rewrite B. exact Eq.
    - exact W.
    - unfold syr. rewrite Em. auto.
  Qed.
  Lemma mask_slot i m : nth_error (reg_order b) i = Some (mask_cobj F n m) -> (1 <= fst m)%nat -> (fst m + snd m <= n)%nat -> forall y,
    exists q, mask_project n m y = Some q /\ wf 0 NC q /\
      circuit_y F T lg repr r (N.of_nat i) y = Some (syr y i) /\ wf 0 NC (syr y i) /\ keyed n (key * y ^ (NC - 1)) (syr y i) q.
  Proof.
    intros E H1 H2 y. destruct m as [skip num]. cbn [fst snd] in *. destruct (project_ok F n skip num H1 H2 y) as (q & Eq & W & _). exists q. split; [exact Eq|]. split; [exact W|].
    destruct (slot_y F T lg repr hash to_bytes from_uniform f_of_u64 S32 b r Hf inj i y q (slot_lt i _ E)) as (m & Em & Wm & Km).
    - rewrite E. exact Eq.
    - exact W.
    - unfold syr. rewrite Em. auto.
  Qed.

  (** ** the claims of one proof *)
  Variables (cb : F) (hs M N' : nat) (P : pparams F) (of_u : BinNums.N -> F) (tag : list BinNums.N) (nbits : nat) (gen : F) (fsqrt : F -> option F) (zeta : F) (log2 : nat).
  Local Notation nobj := (native_obj T x0 x1 x2 x3 yc onec hc lg cb hs M N' P of_u tag nbits gen fsqrt zeta log2).
  Hypothesis slots : forall id, exists o, nobj id = Some o /\ nth_error (reg_order b) (internal_index id) = Some o.

  Lemma multi_slot id stages (c : staged F) : generic_staged c ->
    nobj id = multi_obj x0 x1 x2 x3 yc onec hc lg stages c ->
    exists body outs, sprog stages c = Some (body, outs) /\ fits n body outs /\ owned (orchestrate body outs) [] <> None /\
      forall y, exists q, sy_eval n NC body outs y (floor_plan (sizes (orchestrate body outs))) = Some q /\ wf 0 NC q /\
        circuit_y F T lg repr r (N.of_nat (internal_index id)) y = Some (syr y (internal_index id)) /\
        wf 0 NC (syr y (internal_index id)) /\ keyed n (key * y ^ (NC - 1)) (syr y (internal_index id)) q.
  Proof.
    intros G E. destruct (slots id) as (o & Eo & En). rewrite E in Eo. unfold multi_obj in Eo.
    destruct (sprog stages c) as [[body outs]|] eqn:S; [|discriminate]. cbn [obind fst snd] in Eo. exists body, outs. split; [reflexivity|].
    destruct (staged_owned stages c body outs G S) as [O _]. destruct (circ_slot _ o body outs En Eo O) as [Fi H]. auto.
  Qed.
  Lemma bond_slot id mk : nobj id = mask_obj lg mk -> (forall m, mk = Some m -> 1 <= fst m /\ fst m + snd m <= n)%nat ->
    exists m, mk = Some m /\ (1 <= fst m)%nat /\ (fst m + snd m <= n)%nat /\ forall y,
      exists q, mask_project n m y = Some q /\ wf 0 NC q /\
        circuit_y F T lg repr r (N.of_nat (internal_index id)) y = Some (syr y (internal_index id)) /\
        wf 0 NC (syr y (internal_index id)) /\ keyed n (key * y ^ (NC - 1)) (syr y (internal_index id)) q.
  Proof.
    intros E B. destruct (slots id) as (o & Eo & En). rewrite E in Eo. unfold mask_obj in Eo. destruct mk as [m|]; [|discriminate]. cbn [option_map] in Eo. injection Eo as <-.
    destruct (B m eq_refl) as [B1 B2]. exists m. split; [reflexivity|]. split; [exact B1|]. split; [exact B2|]. intros y. apply mask_slot; auto.
  Qed.

  (** every internal slot evaluates *)
  Lemma slot_ok_all y i : (i < 13)%nat -> circuit_y F T lg repr r (N.of_nat i) y = Some (syr y i) /\ wf 0 NC (syr y i).
  Proof.
    intros Hi. assert (X : exists id, internal_index id = i).
    { do 13 (destruct i as [|i]; [first [now exists Hashes1Circuit|now exists Hashes2Circuit|now exists InnerCollapseCircuit|now exists OuterCollapseCircuit|now exists ComputeVCircuit
        |now exists PreambleStage|now exists InnerErrorStage|now exists OuterErrorStage|now exists QueryStage|now exists EvalStage|now exists InnerErrorFinalStaged|now exists OuterErrorFinalStaged|now exists EvalFinalStaged]|]). lia. }
    destruct X as (id & <-).
    assert (SM : forall pa v m, stage_mask n pa v = Some m -> (1 <= fst m /\ fst m + snd m <= n)%nat) by (intros pa v m; apply mask_new_inv).
    assert (SF : forall pa v m, stage_final_mask n pa v = Some m -> (1 <= fst m /\ fst m + snd m <= n)%nat) by (intros pa v m; apply mask_final_inv).
    destruct id.
    - destruct (multi_slot Hashes1Circuit _ _ (s_hashes_1_gen cb hs N' P of_u tag log2) eq_refl) as (bo & ou & _ & _ & _ & H). destruct (H y) as (q & _ & _ & H1 & H2 & _); auto.
    - destruct (multi_slot Hashes2Circuit _ _ (s_hashes_2_gen cb N' P) eq_refl) as (bo & ou & _ & _ & _ & H). destruct (H y) as (q & _ & _ & H1 & H2 & _); auto.
    - destruct (multi_slot InnerCollapseCircuit _ _ (s_inner_gen cb hs M N' P) eq_refl) as (bo & ou & _ & _ & _ & H). destruct (H y) as (q & _ & _ & H1 & H2 & _); auto.
    - destruct (multi_slot OuterCollapseCircuit _ _ (s_outer_gen cb hs N' P) eq_refl) as (bo & ou & _ & _ & _ & H). destruct (H y) as (q & _ & _ & H1 & H2 & _); auto.
    - destruct (multi_slot ComputeVCircuit _ _ (s_compute_v_gen cb hs M N' lg nbits gen fsqrt zeta (internal_omega T)) eq_refl) as (bo & ou & _ & _ & _ & H). destruct (H y) as (q & _ & _ & H1 & H2 & _); auto.
    - destruct (bond_slot PreambleStage _ eq_refl (SM _ _)) as (m & _ & _ & _ & H). destruct (H y) as (q & _ & _ & H1 & H2 & _); auto.
    - destruct (bond_slot InnerErrorStage _ eq_refl (SM _ _)) as (m & _ & _ & _ & H). destruct (H y) as (q & _ & _ & H1 & H2 & _); auto.
    - destruct (bond_slot OuterErrorStage _ eq_refl (SM _ _)) as (m & _ & _ & _ & H). destruct (H y) as (q & _ & _ & H1 & H2 & _); auto.
    - destruct (bond_slot QueryStage _ eq_refl (SM _ _)) as (m & _ & _ & _ & H). destruct (H y) as (q & _ & _ & H1 & H2 & _); auto.
    - destruct (bond_slot EvalStage _ eq_refl (SM _ _)) as (m & _ & _ & _ & H). destruct (H y) as (q & _ & _ & H1 & H2 & _); auto.
    - destruct (bond_slot InnerErrorFinalStaged _ eq_refl (SF _ _)) as (m & _ & _ & _ & H). destruct (H y) as (q & _ & _ & H1 & H2 & _); auto.
    - destruct (bond_slot OuterErrorFinalStaged _ eq_refl (SF _ _)) as (m & _ & _ & _ & H). destruct (H y) as (q & _ & _ & H1 & H2 & _); auto.
    - destruct (bond_slot EvalFinalStaged _ eq_refl (SF _ _)) as (m & _ & _ & _ & H). destruct (H y) as (q & _ & _ & H1 & H2 & _); auto.
  Qed.

  Variables (Fs : Field) (H : FMod F) (p : proof F Fs H) (u : uvals F) (out : list F) (ys : list F).
  Hypothesis Wp : forall c, wf 0 NC (native_rx p c).
  Let view (y : F) := view_of p (child_k (shown T p u out) y).
  Hypothesis Nd : NoDup ys.
  Hypothesis Ly : (NC <= length ys)%nat.
  Hypothesis claims : forall y, In y ys -> exists zs, NoDup zs /\ (NC <= length zs)%nat /\
    forall z, In z zs -> Forall (claim_holds n z (syr y)) (own_claims (view y) ++ bond_claims 0 [view y]).

  Lemma claim_in y zc (c : claim (poly F) nat * F) : Forall (claim_holds n zc (syr y)) (own_claims (view y) ++ bond_claims 0 [view y]) ->
    In c (own_claims (view y)) \/ In c (bond_claims 0 [view y]) -> claim_holds n zc (syr y) c.
  Proof. intros HF Hi. rewrite Forall_forall in HF. apply HF, in_or_app, Hi. Qed.

  Lemma lsum_parts (l : list rxid) : l <> [] -> exists q, wf 0 NC q /\ forall e, coeff_at q e = lsum (map (fun i => coeff_at (native_rx p (Rx i)) e) l).
  Proof.
    intros Hne. destruct (sum_polys_ok F n (map (fun i => native_rx p (Rx i)) l)) as (q & _ & W & C).
    - destruct l; [congruence|discriminate].
    - apply Forall_forall. intros x Hx. apply in_map_iff in Hx. destruct Hx as (i & <- & _). apply Wp.
    - exists q. split; [exact W|]. intros e. rewrite C, map_map. reflexivity.
  Qed.
  (** the claims of an internal circuit give acceptance of the sum of its polynomials *)
  Lemma int_accepted id stages (c : staged F) outputs rf rs : generic_staged c -> nobj id = multi_obj x0 x1 x2 x3 yc onec hc lg stages c ->
    (forall body outs, sprog stages c = Some (body, outs) -> length outputs = length outs) -> parts id <> [] ->
    (forall y, In (CInt id (map (fun i => native_rx p (Rx i)) (parts id)), k_of outputs y) (own_claims (view y))) ->
    wf 0 NC rf -> (forall e, lsum (map (fun i => coeff_at (native_rx p (Rx i)) e) (parts id)) = coeff_at rf e + fsum (length rs) (fun i => coeff_at (nth i rs []) e)) ->
    Forall (final_checked n (map fst stages) rf) ys ->
    exists q, multi_accepted n stages c outputs rf q rs ys.
  Proof.
    intros G E L Hne Hin Wf C Fi. destruct (multi_slot id stages c G E) as (body & outs & S & Ft & O & Hy).
    destruct (lsum_parts (parts id) Hne) as (q & Wq & Cq). exists q. split; [exact Wf|]. split; [exact Wq|]. split; [intros e; rewrite Cq; apply C|].
    split; [exact Fi|]. exists body, outs. split; [exact S|]. split; [exact Ft|]. split; [now apply (L body)|].
    destruct Ft as [Fg Fc]. apply (keyed_sound F n key body outs outputs q ys Fg Fc O Wq (L body outs S) Nd Ly).
    intros y Iy. destruct (claims y Iy) as (zs & Nz & Lz & Hz). exists zs. split; [exact Nz|]. split; [exact Lz|]. intros z Iz.
    destruct (Hy y) as (s & Es & Ws & _ & Wm & Km). exists s, (syr y (internal_index id)). split; [exact Es|]. split; [exact Km|].
    pose proof (claim_in y z _ (Hz z Iz) (or_introl (Hin y))) as V. unfold claim_holds in V. cbn [fst snd a_coeff b_coeff] in V.
    rewrite ky_ok. unfold k_of in V. rewrite <- V. unfold circ_sum. apply fsum_ext. intros e _. rewrite !Cq, !map_map. reflexivity.
  Qed.
  (** the polynomials bonded to a mask pass its check *)
  Lemma bond_accepted id mk : nobj id = mask_obj lg mk -> (forall m, mk = Some m -> 1 <= fst m /\ fst m + snd m <= n)%nat ->
    (length (bonded id) <= NC)%nat -> (forall y, In (CBond id (map (fun i => native_rx p (Rx i)) (bonded id)), 0) (bond_claims 0 [view y])) ->
    forall i, In i (bonded id) -> forall y, unmasked n mk (native_rx p (Rx i)) y.
  Proof.
    intros E B Lb Hin i Hi. destruct (bond_slot id mk E B) as ([skip num] & -> & B1 & B2 & Hy). cbn [fst snd] in B1, B2.
    destruct (In_nth _ _ i Hi) as (j & Hj & Ej).
    apply (mask_sound F n key skip num (native_rx p (Rx i)) ys B1 B2 (Wp _) Nd Ly).
    intros y Iy. destruct (Hy y) as (q & Eq & _ & _ & _ & Km). exists q, (syr y (internal_index id)). split; [exact Eq|]. split; [exact Km|].
    destruct (claims y Iy) as (zs & Nz & Lz & Hz). set (rs := map (fun i => native_rx p (Rx i)) (bonded id)).
    assert (Lr : length rs = length (bonded id)) by (unfold rs; apply map_length).
    pose proof (bond_split F n rs (syr y (internal_index id)) zs Nz ltac:(lia)) as X.
    assert (Ex : nth j rs [] = native_rx p (Rx i)).
    { unfold rs. rewrite nth_indep with (d' := native_rx p (Rx i)) by (rewrite map_length; exact Hj). rewrite (map_nth (fun i => native_rx p (Rx i))). now rewrite Ej. }
    rewrite <- Ex. apply X; [|lia]. intros z Iz. exact (claim_in y z _ (Hz z Iz) (or_intror (Hin y))).
  Qed.
  Lemma raw_claim : fsum NC (fun e => coeff_at (pf_a p) e * coeff_at (pf_b p) (NC - 1 - e)) = pf_c p.
  Proof.
    pose proof n_pos. destruct ys as [|y l]; [cbn in Ly; lia|]. destruct (claims y (or_introl eq_refl)) as (zs & _ & Lz & Hz). destruct zs as [|z zs]; [cbn in Lz; lia|].
    exact (claim_in y z (CRaw (pf_a p) (pf_b p), pf_c p) (Hz z (or_introl eq_refl)) (or_introl (or_introl eq_refl))).
  Qed.
  (** the application circuit *)
  Lemma app_accepted o body outs : nth_error (reg_order b) (N.to_nat (pf_circuit_id p)) = Some o ->
    prog_cobj x0 x1 x2 x3 yc onec hc lg body outs = Some o -> owned (orchestrate body outs) [] <> None ->
    length (pf_left_header p ++ pf_right_header p ++ out) = length outs ->
    accepted n (pf_application p) body outs (pf_left_header p ++ pf_right_header p ++ out) ys.
  Proof.
    intros En Eo O L. destruct (circ_slot _ o body outs En Eo O) as [[Fg Fc] Hy].
    apply (keyed_sound F n key body outs _ (pf_application p) ys Fg Fc O (Wp (Rx RxApplication)) L Nd Ly).
    intros y Iy. destruct (claims y Iy) as (zs & Nz & Lz & Hz). exists zs. split; [exact Nz|]. split; [exact Lz|]. intros z Iz.
    destruct (Hy y) as (s & Es & Ws & _ & Wm & Km). exists s, (syr y (N.to_nat (pf_circuit_id p))). split; [exact Es|]. split; [exact Km|].
    pose proof (claim_in y z (CApp (N.to_nat (pf_circuit_id p)) (pf_application p), k_of (pf_left_header p ++ pf_right_header p ++ out) y)
      (Hz z Iz) (or_introl (or_intror (or_introl eq_refl)))) as V. unfold claim_holds in V. cbn [fst snd a_coeff b_coeff] in V.
    rewrite ky_ok. unfold k_of in V. rewrite <- V. reflexivity.
  Qed.

  Hypothesis Lul : length (pf_left_header p) = hs.
  Hypothesis Lur : length (pf_right_header p) = hs.
  Lemma native_step : (0 < n)%nat ->
    step_accepted F P cb of_u tag log2 hs lg M N' nbits gen fsqrt zeta (internal_omega T) n (u_write u) (pf_left_header p) (pf_right_header p) ys
      (pf_preamble p) (pf_outer_error p) (pf_inner_error p) (pf_query p) (pf_eval p).
  Proof.
    intros Hn.
    assert (SM : forall pa v m, stage_mask n pa v = Some m -> (1 <= fst m /\ fst m + snd m <= n)%nat) by (intros pa v m; apply mask_new_inv).
    assert (SF : forall pa v m, stage_final_mask n pa v = Some m -> (1 <= fst m /\ fst m + snd m <= n)%nat) by (intros pa v m; apply mask_final_inv).
    assert (B1 := bond_accepted PreambleStage _ eq_refl (SM _ _) ltac:(cbn [bonded length]; lia) (fun y => or_introl eq_refl) RxPreamble (or_introl eq_refl)).
    assert (B2 := bond_accepted InnerErrorStage _ eq_refl (SM _ _) ltac:(cbn [bonded length]; lia) ltac:(intros y; cbn [bond_claims map In]; auto 9) RxInnerError (or_introl eq_refl)).
    assert (B3 := bond_accepted OuterErrorStage _ eq_refl (SM _ _) ltac:(cbn [bonded length]; lia) ltac:(intros y; cbn [bond_claims map In]; auto 9) RxOuterError (or_introl eq_refl)).
    assert (B4 := bond_accepted QueryStage _ eq_refl (SM _ _) ltac:(cbn [bonded length]; lia) ltac:(intros y; cbn [bond_claims map In]; auto 9) RxQuery (or_introl eq_refl)).
    assert (B5 := bond_accepted EvalStage _ eq_refl (SM _ _) ltac:(cbn [bonded length]; lia) ltac:(intros y; cbn [bond_claims map In]; auto 9) RxEval (or_introl eq_refl)).
    assert (B6 := bond_accepted InnerErrorFinalStaged _ eq_refl (SF _ _) ltac:(cbn [bonded length]; lia) ltac:(intros y; cbn [bond_claims map In]; auto 9) RxInnerCollapse (or_introl eq_refl)).
    assert (B7 := bond_accepted OuterErrorFinalStaged _ eq_refl (SF _ _) ltac:(cbn [bonded length]; lia) ltac:(intros y; cbn [bond_claims map In]; auto 9)).
    assert (B8 := bond_accepted EvalFinalStaged _ eq_refl (SF _ _) ltac:(cbn [bonded length]; lia) ltac:(intros y; cbn [bond_claims map In]; auto 9) RxComputeV (or_introl eq_refl)).
    assert (FA : forall (Q : F -> Prop), (forall y, Q y) -> Forall Q ys) by (intros Q HQ; apply Forall_forall; auto).
    assert (Lu : length (u_write u) = unified_wires) by reflexivity.
    constructor.
    - split; [exact (Wp (Rx RxPreamble))|]. apply FA. exact B1.
    - split; [exact (Wp (Rx RxOuterError))|]. apply FA. exact B3.
    - split; [exact (Wp (Rx RxInnerError))|]. apply FA. exact B2.
    - split; [exact (Wp (Rx RxQuery))|]. apply FA. exact B4.
    - split; [exact (Wp (Rx RxEval))|]. apply FA. exact B5.
    - exists (pf_hashes_1 p). apply (int_accepted Hashes1Circuit _ _ _ _ _ (s_hashes_1_gen cb hs N' P of_u tag log2) eq_refl); try discriminate.
      + intros bo ou S. rewrite (h1_outs F cb hs N' P of_u tag log2 bo ou S), !app_length, Lu, Lul, Lur. cbn [length]. lia.
      + intros y. right; right; left; reflexivity.
      + exact (Wp (Rx RxHashes1)).
      + intros e. cbn [parts map lsum fold_right length fsum nth native_rx]. ring.
      + apply FA. exact (B7 RxHashes1 (or_introl eq_refl)).
    - exists (pf_hashes_2 p). apply (int_accepted Hashes2Circuit _ _ _ _ _ (s_hashes_2_gen cb N' P) eq_refl); try discriminate.
      + intros bo ou S. rewrite (h2_outs F cb hs N' P bo ou S), !app_length, Lu. reflexivity.
      + intros y. right; right; right; left; reflexivity.
      + exact (Wp (Rx RxHashes2)).
      + intros e. cbn [parts map lsum fold_right length fsum nth native_rx coeff_at]. ring.
      + apply FA. exact (B7 RxHashes2 (or_intror (or_introl eq_refl))).
    - exists (pf_inner_collapse p). apply (int_accepted InnerCollapseCircuit _ _ _ _ _ (s_inner_gen cb hs M N' P) eq_refl); try discriminate.
      + intros bo ou S. rewrite (inner_outs F cb hs M N' P bo ou S), !app_length, Lu. reflexivity.
      + intros y. right; right; right; right; left; reflexivity.
      + exact (Wp (Rx RxInnerCollapse)).
      + intros e. cbn [parts map lsum fold_right length fsum nth native_rx coeff_at]. ring.
      + apply FA. exact B6.
    - exists (pf_outer_collapse p). apply (int_accepted OuterCollapseCircuit _ _ _ _ _ (s_outer_gen cb hs N' P) eq_refl); try discriminate.
      + intros bo ou S. rewrite (outer_outs F cb hs N' P bo ou S), !app_length, Lu. reflexivity.
      + intros y. right; right; right; right; right; left; reflexivity.
      + exact (Wp (Rx RxOuterCollapse)).
      + intros e. cbn [parts map lsum fold_right length fsum nth native_rx coeff_at]. ring.
      + apply FA. exact (B7 RxOuterCollapse (or_intror (or_intror (or_introl eq_refl)))).
    - exists (pf_compute_v p). apply (int_accepted ComputeVCircuit _ _ _ _ _ (s_compute_v_gen cb hs M N' lg nbits gen fsqrt zeta (internal_omega T)) eq_refl); try discriminate.
      + intros bo ou S. rewrite (v_outs F cb hs M N' lg nbits gen fsqrt zeta _ bo ou S), !app_length, Lu. reflexivity.
      + intros y. right; right; right; right; right; right; left; reflexivity.
      + exact (Wp (Rx RxComputeV)).
      + intros e. cbn [parts map lsum fold_right length fsum nth native_rx coeff_at]. ring.
      + apply FA. exact B8.
  Qed.
End Native.
