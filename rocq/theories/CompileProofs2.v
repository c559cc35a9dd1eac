(** Proofs for C51: arbitrary polynomials as traces, and multi-stage circuits. *)
From Coq Require Import List Arith NArith Lia Bool.
From Verif Require Import FieldDef ArithModel ArithSpec ArithProofs SparseModel SparseSpec SparseProofs SparseProofs2 TModel TProofs
  GadgetModel GadgetSpec CircModel CircSpec CircProofs SProofs SyModel SyProofs2 TraceModel TraceProofs ClaimModel SatProofs
  StageModel StageSpec StageProofs StageProofs2 CompileModel CompileSpec CompileProofs ParSpec ParProofs.
Import ListNotations.
Local Open Scope nat_scope.

Section Cols.
  Variable F : Field.
  Add Field FFcq : (f_theory F).
  Open Scope f_scope.
  Notation poly := (list (nat * list F)).

  (** ** any polynomial of the right size is a trace *)
  Definition col n (r : poly) (k : kind) : list F := map (poly_wires n r k) (seq 0 n).
  Lemma col_length n r k : length (col n r k) = n.
  Proof. unfold col. now rewrite map_length, seq_length. Qed.
  Lemma col_nth n r k i : (i < n)%nat -> nth i (col n r k) 0 = poly_wires n r k i.
  Proof.
    intros H. unfold col. rewrite nth_indep with (d' := poly_wires n r k 0) by (rewrite map_length, seq_length; exact H).
    rewrite map_nth, seq_nth by exact H. reflexivity.
  Qed.
  Lemma col_nth_ge n r k i : (n <= i)%nat -> nth i (col n r k) 0 = 0.
  Proof. intros H. apply nth_overflow. now rewrite col_length. Qed.
  Lemma wf_coeff_ge : forall (r : poly) lo hi k, wf lo hi r -> (hi <= k)%nat -> coeff_at r k = 0.
  Proof.
    intros r lo hi k W H. eapply coeff_high; eauto.
  Qed.
  Lemma poly_cols n (r : poly) : wf 0 (4 * n) r ->
    exists r', trace_build (4 * n) n (col n r KA) (col n r KB) (col n r KC) (col n r KD) = Some r' /\ wf 0 (4 * n) r' /\
      forall k, coeff_at r' k = coeff_at r k.
  Proof.
    intros W. destruct (trace_build_ok F n (col n r KA) (col n r KB) (col n r KC) (col n r KD)) as (r' & E & W' & C);
      try (rewrite col_length; lia).
    exists r'. split; [exact E|]. split; [exact W'|]. intros k. rewrite C. unfold trace_coeff.
    destruct (Nat.ltb_spec k n); [rewrite col_nth by lia; reflexivity|].
    destruct (Nat.ltb_spec k (2 * n)); [rewrite col_nth by lia; unfold poly_wires; f_equal; lia|].
    destruct (Nat.ltb_spec k (3 * n)); [rewrite col_nth by lia; unfold poly_wires; f_equal; lia|].
    destruct (Nat.ltb_spec k (4 * n)); [rewrite col_nth by lia; unfold poly_wires; f_equal; lia|].
    symmetry. eapply wf_coeff_ge; eauto.
  Qed.
  Lemma passes_ext n r r' body outs outputs (y z : F) :
    let p := orchestrate body outs in
    (list_sum (map fst (sizes p)) <= n)%nat -> (list_sum (map snd (sizes p)) < 4 * n)%nat -> owned p [] <> None ->
    wf 0 (4 * n) r -> wf 0 (4 * n) r' -> (forall k, coeff_at r' k = coeff_at r k) ->
    passes F n r body outs outputs y z -> passes F n r' body outs outputs y z.
  Proof.
    intros p Hg Hc Ho W W' C (sy & bp & E1 & E2 & E3).
    destruct (sy_ok F n body outs y Hg Hc Ho) as (sy' & Es & Ws & _). fold p in E1, Es. rewrite E1 in Es. injection Es as <-.
    destruct (dilate_ok F (4 * n) r z W) as [Wd Cd]. destruct (dilate_ok F (4 * n) r' z W') as [Wd' Cd'].
    destruct (SparseProofs.add_ok F (4 * n) _ _ Wd Ws) as (b1 & F1 & W1 & C1).
    destruct (SparseProofs.add_ok F (4 * n) _ _ Wd' Ws) as (b1' & F1' & W1' & C1').
    destruct (t_z_ok F n z) as (tz & Et & Wt & Ct).
    destruct (SparseProofs.add_ok F (4 * n) _ _ W1 Wt) as (b2 & F2 & W2 & C2).
    destruct (SparseProofs.add_ok F (4 * n) _ _ W1' Wt) as (b2' & F2' & W2' & C2').
    unfold circuit_claim_b in E2. rewrite F1, Et, F2 in E2. injection E2 as <-.
    exists sy, b2'. split; [exact E1|]. split; [unfold circuit_claim_b; now rewrite F1', Et, F2'|].
    rewrite <- E3, !revdot_ok by auto. apply fsum_ext. intros k _. now rewrite C, C2', C2, C1', C1, Cd', Cd, C.
  Qed.
  Lemma poly_sound n body outs outputs (r : poly) ys :
    let p := orchestrate body outs in
    (list_sum (map fst (sizes p)) <= n)%nat -> (list_sum (map snd (sizes p)) < 4 * n)%nat -> owned p [] <> None ->
    wf 0 (4 * n) r -> length outputs = length outs -> NoDup ys -> (4 * n <= length ys)%nat ->
    (forall y, In y ys -> exists zs, NoDup zs /\ (4 * n <= length zs)%nat /\ forall z, In z zs -> passes F n r body outs outputs y z) ->
    satisfied n (col n r KA) (col n r KB) (col n r KC) (col n r KD) body outs outputs.
  Proof.
    intros p Hg Hc Ho W Hl Hnd Hys Hp. destruct (poly_cols n r W) as (r' & E & W' & C).
    apply (sat_sound F n body outs outputs _ _ _ _ r') with (ys := ys); auto; try (rewrite col_length; lia).
    intros y Hy. destruct (Hp y Hy) as (zs & Z1 & Z2 & Z3). exists zs. split; [exact Z1|]. split; [exact Z2|].
    intros z Hz. apply (passes_ext n r r'); auto.
  Qed.
End Cols.

Section Staged.
  Context {F : Field}.
  Add Field FFcr : (f_theory F).
  Lemma Forall2_nth {A B : Type} (R : A -> B -> Prop) (d : A) (d' : B) : forall l l', length l = length l' ->
    (forall i, i < length l -> R (nth i l d) (nth i l' d')) -> Forall2 R l l'.
  Proof.
    induction l as [|x l IH]; destruct l' as [|y l']; intros E H; try discriminate; constructor.
    - apply (H 0). cbn. lia.
    - apply IH; [now injection E|]. intros i Hi. apply (H (S i)). cbn. lia.
  Qed.
  Lemma nth_map_seq {A : Type} (f : nat -> A) n d i : i < n -> nth i (map f (seq 0 n)) d = f i.
  Proof.
    intros H. rewrite nth_indep with (d' := f 0) by (rewrite map_length, seq_length; exact H).
    rewrite map_nth, seq_nth by exact H. reflexivity.
  Qed.
  Definition fits_ok (stages : list (nat * nat)) : bool := forallb (fun s => snd s <=? fst s) stages.
  Definition nstage (stages : list (nat * nat)) : nat := stage_start (map fst stages) (length stages) - 1.
  Definition guards_of (stages : list (nat * nat)) : list (list wref) :=
    map (fun i => map WVar (seq (4 + 2 * (stage_start (map fst stages) i - 1)) (snd (nth i stages (0, 0))))) (seq 0 (length stages)).
  Lemma stages_end_ok : forall stages e, fits_ok stages = true -> stages_end e stages = e + 2 * nstage stages.
  Proof.
    unfold nstage. induction stages as [|[v w] stages IH]; intros e H; [cbn; lia|].
    unfold fits_ok in H. cbn [forallb fst snd] in H. apply andb_true_iff in H. destruct H as [H1 H2]. apply Nat.leb_le in H1.
    cbn [stages_end map length fst]. rewrite IH by exact H2. rewrite start_cons. pose proof (start_pos (map fst stages) (length stages)).
    pose proof (ceil2_bounds v). rewrite pad_loop_ok by lia. rewrite ceil2 in *. lia.
  Qed.
  Lemma sprog_inv stages (k : staged F) body outs : sprog stages k = Some (body, outs) ->
    let c := compile (k wref WOne (guards_of stages)) (4 + 2 * nstage stages) in
    fits_ok stages = true /\ exists res, snd c = Some res /\ outs = map (ew F wref) res /\
      body = allocs (repeat f0 (2 * nstage stages)) (fst c).
  Proof.
    unfold sprog. rewrite add_stages_ok. fold (fits_ok stages). destruct (fits_ok stages) eqn:E; [|discriminate].
    rewrite stages_end_ok by exact E. fold (guards_of stages). intros H. split; [reflexivity|].
    destruct (snd (compile (k wref WOne (guards_of stages)) (4 + 2 * nstage stages))) as [res|]; [|discriminate].
    rewrite add_stages_ok in H. fold (fits_ok stages) in H. rewrite E in H. fold (nstage stages) in H.
    exists res. split; [reflexivity|]. split; congruence.
  Qed.

  Lemma stage_bound stages i : fits_ok stages = true -> i < length stages ->
    2 * (stage_start (map fst stages) i - 1) + snd (nth i stages (0, 0)) <= 2 * nstage stages /\
    1 <= stage_start (map fst stages) i.
  Proof.
    intros E Hi. pose proof (start_pos (map fst stages) i). split; [|lia].
    destruct (nth_error stages i) as [[v w]|] eqn:N; [|apply nth_error_None in N; lia].
    rewrite (nth_error_nth _ _ _ N). cbn [snd].
    assert (w <= v). { unfold fits_ok in E. rewrite forallb_forall in E. specialize (E _ (nth_error_In _ _ N)). now apply Nat.leb_le in E. }
    pose proof (start_S (map fst stages) i v ltac:(now rewrite nth_error_map, N)).
    pose proof (start_mono (map fst stages) (S i) (length stages) ltac:(lia)).
    pose proof (ceil2_bounds v). rewrite ceil2 in *. unfold nstage. lia.
  Qed.
  Lemma guards_rel stages (sys wires E : list F) (vs : list (list F)) : fits_ok stages = true -> length sys = 4 ->
    ext (sys ++ wires) E -> map (@length F) vs = map snd stages ->
    (forall i j, i < length stages -> j < snd (nth i stages (0, 0)) ->
       nth_error wires (2 * (stage_start (map fst stages) i - 1) + j) = Some (nth j (nth i vs []) f0)) ->
    Forall2 (Forall2 (rwire E)) (guards_of stages) vs.
  Proof.
    intros Hf L4 [u ->] Hl H.
    assert (Ll : length vs = length stages) by (rewrite <- (map_length (@length F)), Hl, map_length; reflexivity).
    apply (Forall2_nth _ [] []).
    - unfold guards_of. now rewrite map_length, seq_length.
    - unfold guards_of at 1. rewrite map_length, seq_length. intros i Hi. unfold guards_of. rewrite nth_map_seq by exact Hi.
      assert (Lv : length (nth i vs []) = snd (nth i stages (0, 0))).
      { change (length (nth i vs [])) with (@length F (nth i vs [])). rewrite <- (map_nth (@length F)), Hl.
        exact (map_nth snd stages (0, 0) i). }
      apply (Forall2_nth _ WOne f0); [now rewrite map_length, seq_length|]. rewrite map_length, seq_length. intros j Hj.
      rewrite nth_indep with (d' := WVar 0) by (rewrite map_length, seq_length; exact Hj). rewrite map_nth, seq_nth by exact Hj.
      cbn [rwire]. split; [lia|]. rewrite nth_error_app1.
      + rewrite nth_error_app2 by lia. rewrite L4.
        replace (4 + 2 * (stage_start (map fst stages) i - 1) + j - 4) with (2 * (stage_start (map fst stages) i - 1) + j) by lia.
        now apply H.
      + rewrite app_length, L4. specialize (H i j Hi Hj).
        assert (X : 2 * (stage_start (map fst stages) i - 1) + j < length wires) by (apply nth_error_Some; now rewrite H). lia.
  Qed.
  Lemma staged_agree stages (k : staged F) (sys wires : list F) vs : generic_staged k -> fits_ok stages = true -> length sys = 4 ->
    map (@length F) vs = map snd stages ->
    (forall i j, i < length stages -> j < snd (nth i stages (0, 0)) ->
       nth_error wires (2 * (stage_start (map fst stages) i - 1) + j) = Some (nth j (nth i vs []) f0)) ->
    agree (k wref WOne (guards_of stages)) (k F f1 vs) (sys ++ wires).
  Proof.
    intros H Hf L4 Hl Hw. split; [rewrite app_length; lia|]. intros E X. apply H; [reflexivity|].
    eapply guards_rel; eauto.
  Qed.

  Lemma compile_subrows {A : Type} (p : G F wref A) : forall n, sub_rows (fst (compile p n)) = [].
  Proof.
    induction p as [a| |w k IH|w k IH|lc k IH|lc k IH]; intros; cbn [compile fst sub_rows]; auto.
    destruct (match w with Some t => t | None => _ end) as [[[a' b'] c'] d']. cbn [fst sub_rows]. auto.
  Qed.
  Lemma pairs_length (f h : nat -> F) : forall G s, length (flat_map (fun t => [f t; h t]) (seq s G)) = 2 * G.
  Proof. induction G as [|G IH]; intros s; [reflexivity|]. cbn [seq flat_map]. rewrite app_length, IH. cbn [length]. lia. Qed.
  Lemma pairs_nth (val : kind -> nat -> F) G i : i < 2 * G ->
    nth_error (flat_map (fun t => [val KB (1 + t); val KD (1 + t)]) (seq 0 G)) i =
    Some (stage_wire val 1 i).
  Proof.
    intros H. rewrite nth_error_nth' with (d := f0).
    - rewrite (nth_flat_pairs F (fun t => val KB (1 + t)) (fun t => val KD (1 + t))) by exact H. unfold stage_wire.
      cbn [Nat.add]. destruct (Nat.even i); reflexivity.
    - rewrite (pairs_length (fun t => val KB (1 + t)) (fun t => val KD (1 + t))). exact H.
  Qed.
  Lemma stage_wire_shift (val : kind -> nat -> F) s j : 1 <= s -> stage_wire val 1 (2 * (s - 1) + j) = stage_wire val s j.
  Proof.
    intros H. unfold stage_wire. rewrite Nat.even_add, Nat.even_mul. cbn [Nat.even orb].
    replace ((2 * (s - 1) + j) / 2) with (s - 1 + j / 2).
    2:{ rewrite (Nat.mul_comm 2), (Nat.add_comm _ j), Nat.div_add by lia. lia. }
    destruct (Nat.even j); cbn [Bool.eqb]; f_equal; lia.
  Qed.
  Definition all_values (v : kind -> nat -> F) (stages : list (nat * nat)) : list (list F) :=
    map (stage_values v stages) (seq 0 (length stages)).
  Lemma all_values_length v stages : map (@length F) (all_values v stages) = map snd stages.
  Proof.
    unfold all_values. rewrite map_map. apply nth_ext with (d := 0) (d' := 0); [now rewrite !map_length, seq_length|].
    rewrite map_length, seq_length. intros i Hi. rewrite nth_map_seq by exact Hi. unfold stage_values. rewrite map_length, seq_length.
    symmetry. exact (map_nth snd stages (0, 0) i).
  Qed.

  (** ** soundness: columns *)
  Lemma staged_holds n stages (k : staged F) body outs outputs a b c d :
    generic_staged k -> sprog stages k = Some (body, outs) -> list_sum (map fst (sizes (orchestrate body outs))) <= n ->
    satisfied n a b c d body outs outputs ->
    exists r, holds (k F f1 (all_values (columns a b c d) stages)) r /\ map (ew F F) r = outputs.
  Proof.
    intros Hk Hs Hn [Hg (Hown & _ & Hout & Hone)]. destruct (sprog_inv _ _ _ _ Hs) as (Hf & res & Hc & -> & ->). clear Hs.
    set (G := nstage stages) in *. set (cont := fst _) in *. set (val := placed _ _) in *.
    rewrite (allocs_gates F G) in Hn by apply repeat_length.
    set (wires := flat_map (fun t => [val 0 KB (1 + t); val 0 KD (1 + t)]) (seq 0 G)).
    assert (Lw : length wires = 2 * G).
    { apply (pairs_length (fun t => val 0 KB (1 + t)) (fun t => val 0 KD (1 + t))). }
    assert (Hag : agree (k wref WOne (guards_of stages)) (k F f1 (all_values (columns a b c d) stages)) (system_wires val ++ wires)).
    { apply staged_agree; auto; [apply all_values_length|]. intros i j Hi Hj.
      destruct (stage_bound stages i Hf Hi) as [B1 B2]. fold G in B1.
      unfold wires. rewrite (pairs_nth (val 0)) by lia. f_equal. rewrite stage_wire_shift by exact B2.
      unfold all_values. rewrite nth_map_seq by exact Hi. unfold stage_values. rewrite nth_map_seq by exact Hj. reflexivity. }
    rewrite (sem_allocs F val G) in Hown, Hout by apply repeat_length. fold wires in Hown, Hout.
    assert (Le : length (system_wires val ++ wires) = 4 + 2 * G) by (rewrite app_length, Lw; reflexivity).
    destruct (sem_holds val Hone _ _ _ (1 + G) None res Hag) as (r2 & Hh & Hm).
    - rewrite Le. exact Hc.
    - rewrite Le. fold cont. cbn [half]. intros i Hi. unfold row_ok, row_at, val, placed, columns.
      change (gate_off _ 0) with 0. cbn [Nat.add]. apply Hg. rewrite app_length in Hn. lia.
    - rewrite Le. exact Hown.
    - exists r2. split; [exact Hh|]. rewrite <- Hm. rewrite <- Hout, Hone, Le. reflexivity.
  Qed.

  (** ** ownership *)
  Lemma owned_allocs outs : forall (vs : list F) k live,
    owned (prog_app (allocs vs k) (enforce_outputs outs)) live = owned (prog_app k (enforce_outputs outs)) (live ++ repeat true (length vs)).
  Proof.
    induction vs as [|v vs IH]; intros k live; cbn [length repeat]; [now rewrite app_nil_r|].
    change (allocs (v :: vs) k) with (PAlloc v (allocs vs k)). cbn [prog_app owned]. rewrite IH.
    now rewrite <- app_assoc.
  Qed.
  Lemma staged_owned stages (k : staged F) body outs : generic_staged k -> sprog stages k = Some (body, outs) ->
    owned (orchestrate body outs) [] <> None /\ hides_d (orchestrate body outs) = true.
  Proof.
    intros Hk Hs. destruct (sprog_inv _ _ _ _ Hs) as (Hf & res & Hc & -> & ->). clear Hs. set (G := nstage stages) in *.
    pose (vs := map (fun s => repeat (f0 : F) (snd s)) stages).
    assert (Hag : agree (k wref WOne (guards_of stages)) (k F f1 vs) (repeat f0 4 ++ repeat f0 (2 * G))).
    { apply staged_agree; auto.
      - unfold vs. rewrite map_map. apply map_ext. intros s. apply repeat_length.
      - intros i j Hi Hj. destruct (stage_bound stages i Hf Hi) as [B1 B2]. fold G in B1.
        rewrite nth_error_nth' with (d := f0) by (rewrite repeat_length; lia). f_equal. rewrite nth_repeat.
        unfold vs. rewrite nth_indep with (d' := repeat f0 (snd (0, 0))) by (rewrite map_length; exact Hi).
        rewrite (map_nth (fun s => repeat (f0 : F) (snd s))). now rewrite nth_repeat. }
    assert (Le : length (repeat (f0 : F) 4 ++ repeat f0 (2 * G)) = 4 + 2 * G) by (now rewrite app_length, !repeat_length).
    destruct (owned_compile _ _ _ Hag res) as (O & Hh & Hr); [rewrite Le; exact Hc|]. rewrite Le in O, Hh.
    unfold orchestrate. cbn [owned hides_d app]. split.
    - rewrite owned_allocs, repeat_length. exact O.
    - revert Hh Hr. generalize (fst (compile (k wref WOne (guards_of stages)) (4 + 2 * G))) as q.
      generalize (map (ew F wref) res) as outs. intros outs q Hh Hr.
      assert (K : hides_d (F := F) (enforce_outputs outs) = true).
      { clear - Hr. induction Hr as [|o r Hx _ IH]; [reflexivity|]. cbn [enforce_outputs hides_d]. unfold lc_hides.
        cbn [forallb]. now rewrite Hx, IH. }
      rewrite SProofs.hides_app, K, andb_true_r. generalize (repeat (f0 : F) (2 * G)). clear - Hh. induction l; [exact Hh|exact IHl].
  Qed.
End Staged.
