(** An accepted proof names a step: the slots of the internal circuits, of the masks
    and the empty slots are excluded by the suffix of the header. *)
From Coq Require Import List Arith NArith Bool Lia Ring Field.
From Verif Require Import FieldDef ModDef ArithModel ArithSpec ArithProofs FFTModel FFTProofs SparseModel SparseSpec SparseProofs SparseProofs2 TModel TProofs
  FoldModel FoldSpec ClaimModel CircModel CircSpec SyModel SProofs TraceModel CircProofs CircProofs2 SyProofs SyProofs2 SatProofs GadgetModel GadgetSpec SpongeModel StageModel StageSpec StageProofs StageProofs2 RegModel RegSpec RegProofs RegProofs2
  PcdModel PcdSpec PcdProofs2 RecModel RecSpec CompileModel CompileSpec CompileSpec2 CompileProofs CompileProofs2 RecStageModel RecStageSpec RecStageProofs Props_Step
  VerifyModel VerifySpec VerifyProofs VerifyProofs2 VerifyProofs3 VerifyProofs4 VerifyProofs5.
Import ListNotations.
Local Open Scope nat_scope.

Section Excl.
  Variable F : Field.
  Add Field FFve : (f_theory F).
  Open Scope f_scope.
  Variable n : nat.
  Hypothesis Hn : (0 < n)%nat.
  Local Notation NC := (4 * n)%nat.

  (** the sum splits into the gates and the wiring *)
  Lemma circ_split (z : F) r q : wf 0 NC r ->
    circ_sum F n z r q = gate_poly F n (col F n r KA) (col F n r KB) (col F n r KC) (col F n r KD) z + mask_sum F n r q.
  Proof.
    intros W. destruct (poly_cols F n r W) as (r' & E' & W' & C').
    destruct (t_z_ok F n z) as (tz & Et & Wt & Ct). destruct (dilate_ok F NC r' z W') as [Wd Cd].
    destruct (SparseProofs.add_ok F NC _ _ Wd Wt) as (g & Eg & Wg & Cg).
    rewrite <- (gate_identity F n _ _ _ _ r' z (p_dilate z r') tz g) by (try (rewrite col_length; lia); auto).
    destruct (circuit_b_ok F n z r [] W I) as (bp & Eb & Wb & Cb).
    rewrite revdot_ok by auto. unfold circ_sum, mask_sum. rewrite <- fsum_add. apply fsum_ext. intros k Hk.
    assert (X : coeff_at g (NC - 1 - k) = coeff_at r (NC - 1 - k) * z ^ (NC - 1 - k) + t_coeff n z (NC - 1 - k)).
    { rewrite Cg, Cd, C', Ct. reflexivity. }
    rewrite X, C'. ring.
  Qed.
  (** acceptance compares the wiring with the instance, coefficient by coefficient *)
  Lemma slot_coeffs key (Y : nat -> F) outputs (r : poly F) ys : wf 0 NC r -> NoDup ys -> (NC <= length ys)%nat -> (S (length outputs) <= NC)%nat ->
    (forall y, In y ys -> exists zs, NoDup zs /\ (NC <= length zs)%nat /\ forall z, In z zs -> exists q m,
       keyed n (key * y ^ (NC - 1)) m q /\ mask_sum F n r q = fsum NC (fun i => Y i * y ^ i) /\ circ_sum F n z r m = ky_eval outputs y) ->
    forall i, (i < NC - 1)%nat -> Y i = nth i (1 :: rev outputs) 0.
  Proof.
    intros W Nd Ly Lo Hp i Hi.
    set (D := fun i => Y i - nth i (1 :: rev outputs) 0 + (if (i =? NC - 1)%nat then key * coeff_at r 0 else 0)).
    assert (Z : forall i, (i < NC)%nat -> D i = 0).
    { apply (coeffs_zero F NC D ys Nd Ly). intros y Hy. destruct (Hp y Hy) as (zs & Hz & Lz & Pz).
      destruct (gate_poly_const F n (col F n r KA) (col F n r KB) (col F n r KC) (col F n r KD) zs
        (ky_eval outputs y - fsum NC (fun i => Y i * y ^ i) - key * coeff_at r 0 * y ^ (NC - 1)) Hz Lz Hn) as [_ E].
      - intros z Hzin. destruct (Pz z Hzin) as (q & m & Km & Mq & S). rewrite (circ_keyed F n z r m q _ Hn Km), (circ_split z r q W), Mq in S. rewrite <- S. ring.
      - transitivity (- (ky_eval outputs y - fsum NC (fun i => Y i * y ^ i) - key * coeff_at r 0 * y ^ (NC - 1))); [|rewrite E; ring].
        rewrite ky_ok, (peval_nth_ge F (1 :: rev outputs) NC y) by (cbn [length]; rewrite rev_length; lia).
        assert (TT : fsum NC (fun i => (if (i =? NC - 1)%nat then key * coeff_at r 0 else 0) * y ^ i) = key * coeff_at r 0 * y ^ (NC - 1)).
        { rewrite (fsum_single F NC (NC - 1)); [now rewrite Nat.eqb_refl|lia|]. intros j _ Hne. apply Nat.eqb_neq in Hne. rewrite Hne. ring. }
        transitivity (fsum NC (fun i => Y i * y ^ i) - fsum NC (fun i => nth i (1 :: rev outputs) 0 * y ^ i) + key * coeff_at r 0 * y ^ (NC - 1)); [|ring].
        rewrite <- TT, <- fsum_sub, <- fsum_add. apply fsum_ext. intros j _. unfold D. ring. }
    specialize (Z i ltac:(lia)). unfold D in Z. destruct (Nat.eqb_spec i (NC - 1)); [lia|].
    transitivity (Y i - nth i (1 :: rev outputs) 0 + 0 + nth i (1 :: rev outputs) 0); [ring|rewrite Z; ring].
  Qed.

  Lemma one_zero : (1 : F) <> 0.
  Proof. exact (F_1_neq_0 (f_theory F)). Qed.
  (** an empty slot *)
  Lemma empty_excl key outputs (r : poly F) ys : wf 0 NC r -> NoDup ys -> (NC <= length ys)%nat -> (S (length outputs) <= NC)%nat ->
    (forall y, In y ys -> exists zs, NoDup zs /\ (NC <= length zs)%nat /\ forall z, In z zs -> exists m,
       keyed n (key * y ^ (NC - 1)) m [] /\ circ_sum F n z r m = ky_eval outputs y) -> False.
  Proof.
    intros W Nd Ly Lo Hp.
    assert (X := slot_coeffs key (fun _ => 0) outputs r ys W Nd Ly Lo). cbv beta in X.
    apply one_zero. symmetry. apply (X ltac:(intros y Hy; destruct (Hp y Hy) as (zs & A & B & C); exists zs; split; [exact A|]; split; [exact B|];
      intros z Hz; destruct (C z Hz) as (m & K & S); exists [], m; split; [exact K|]; split; [|exact S];
      unfold mask_sum; rewrite !fsum_zero; [reflexivity|intros; ring|intros; cbn [coeff_at]; ring]) 0%nat ltac:(lia)).
  Qed.
  (** the slot of a mask *)
  Lemma mask_excl key skip num outputs (r : poly F) ys : (1 <= skip)%nat -> (skip + num <= n)%nat -> wf 0 NC r -> NoDup ys -> (NC <= length ys)%nat -> (S (length outputs) <= NC)%nat ->
    (forall y, In y ys -> exists zs, NoDup zs /\ (NC <= length zs)%nat /\ forall z, In z zs -> exists q m,
       mask_project n (skip, num) y = Some q /\ keyed n (key * y ^ (NC - 1)) m q /\ circ_sum F n z r m = ky_eval outputs y) -> False.
  Proof.
    intros Hs Hf W Nd Ly Lo Hp.
    assert (X := slot_coeffs key (fun k => if active skip num (gate_of n k) then 0 else coeff_at r (NC - 1 - k)) outputs r ys W Nd Ly Lo). cbv beta in X.
    assert (A0 : active skip num (gate_of n 0) = true).
    { unfold gate_of. destruct (Nat.ltb_spec 0 n); [reflexivity|lia]. }
    apply one_zero. symmetry. transitivity (if active skip num (gate_of n 0) then 0 else coeff_at r (NC - 1 - 0)); [now rewrite A0|].
    apply (X ltac:(intros y Hy; destruct (Hp y Hy) as (zs & A & B & C); exists zs; split; [exact A|]; split; [exact B|];
      intros z Hz; destruct (C z Hz) as (q & m & Eq & K & S); exists q, m; split; [exact K|]; split; [|exact S];
      destruct (mask_revdot F n skip num Hs Hf r y W) as (q' & Eq' & V); rewrite Eq in Eq'; injection Eq' as <-;
      destruct (project_ok F n skip num Hs Hf y) as (q' & Eq' & Wq & _); rewrite Eq in Eq'; injection Eq' as <-;
      rewrite revdot_ok in V by auto; exact V) 0%nat ltac:(lia)).
  Qed.
  (** the slot of a staged circuit whose last output is a constant zero *)
  Lemma circ_excl key stages (k : staged F) body outs outputs s (r : poly F) ys :
    generic_staged k -> sprog stages k = Some (body, outs) -> (forall gs, lleaves F (ends_zero F) (k F f1 gs)) ->
    fits n body outs -> wf 0 NC r -> NoDup ys -> (NC <= length ys)%nat -> (S (length (outputs ++ [s])) <= NC)%nat -> (2 < NC)%nat ->
    (forall y, In y ys -> exists zs, NoDup zs /\ (NC <= length zs)%nat /\ forall z, In z zs -> exists q m,
       sy_eval n NC body outs y (floor_plan (sizes (orchestrate body outs))) = Some q /\ keyed n (key * y ^ (NC - 1)) m q /\
       circ_sum F n z r m = ky_eval (outputs ++ [s]) y) -> s = 0.
  Proof.
    intros Gk Hs Lz [Hg Hc] W Nd Ly Lo H2 Hp. destruct (staged_owned stages k body outs Gk Hs) as [Ho _].
    set (p := orchestrate body outs) in *. set (val := placed (sizes p) (columns (col F n r KA) (col F n r KB) (col F n r KC) (col F n r KD))).
    set (Y := y_coeffs val p).
    assert (LY : (length Y < NC)%nat) by (unfold Y; now rewrite y_coeffs_length).
    assert (X : forall i, (i < NC - 1)%nat -> nth i Y 0 = nth i (1 :: rev (outputs ++ [s])) 0).
    { apply (slot_coeffs key (fun i => nth i Y 0) (outputs ++ [s]) r ys W Nd Ly Lo). intros y Hy. destruct (Hp y Hy) as (zs & A & B & C).
      exists zs. split; [exact A|]. split; [exact B|]. intros z Hz. destruct (C z Hz) as (q & m & Eq & K & S). exists q, m. split; [exact K|]. split; [|exact S].
      destruct (poly_cols F n r W) as (r' & E' & W' & C').
      destruct (sy_revdot F n body outs y (col F n r KA) (col F n r KB) (col F n r KC) (col F n r KD) r' q Hg Hc Ho ltac:(rewrite col_length; lia) ltac:(rewrite col_length; lia) ltac:(rewrite col_length; lia) ltac:(rewrite col_length; lia) E' Eq) as [Wq V].
      fold p val Y in V. rewrite (peval_nth_ge F Y NC y) in V by lia. rewrite <- V, revdot_ok by auto. unfold mask_sum. apply fsum_ext. intros e _. now rewrite C'. }
    assert (X0 := X 0%nat ltac:(lia)). assert (X1 := X 1%nat ltac:(lia)). clear X.
    unfold Y, p in X0, X1. rewrite y_coeffs_orch in X0, X1. cbv zeta in X0, X1. cbn [nth] in X0, X1.
    rewrite rev_app_distr in X1. cbn [rev app nth] in X1. rewrite <- X1. clear X1 Y LY.
    destruct (sprog_inv _ _ _ _ Hs) as (Hf & res & Hcm & -> & Eb). clear Hs.
    set (G := nstage stages) in *. 
    set (wires := flat_map (fun t => [val 0%nat KB (1 + t)%nat; val 0%nat KD (1 + t)%nat]) (seq 0 G)).
    assert (Lw : length wires = (2 * G)%nat) by apply (pairs_length (fun t => val 0%nat KB (1 + t)%nat) (fun t => val 0%nat KD (1 + t)%nat)).
    assert (Hag : agree (k wref WOne (guards_of stages)) (k F f1 (all_values (val 0%nat) stages)) (system_wires val ++ wires)).
    { apply staged_agree; auto; [apply all_values_length|]. intros i j Hi Hj.
      destruct (stage_bound stages i Hf Hi) as [B1 B2]. fold G in B1.
      unfold wires. rewrite (pairs_nth (val 0%nat)) by lia. f_equal. rewrite stage_wire_shift by exact B2.
      unfold all_values. rewrite nth_map_seq by exact Hi. unfold stage_values. rewrite nth_map_seq by exact Hj. reflexivity. }
    rewrite Eb, (sem_allocs F val G) by apply repeat_length. fold wires.
    assert (Le : length (system_wires val ++ wires) = (4 + 2 * G)%nat) by (rewrite app_length, Lw; reflexivity).
    destruct (sem_leaves F val X0 (ends_zero F) _ _ _ (1 + G)%nat None res Hag (Lz _)) as (r2 & (o' & zz & -> & Ez) & Hm); [rewrite Le; exact Hcm|].
    rewrite Le in Hm. rewrite X0, Hm, map_app, rev_app_distr. cbn [map rev app nth]. exact Ez.
  Qed.
End Excl.
