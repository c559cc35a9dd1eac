(** Proofs for C51, continued: completeness of multi-stage circuits and the
    polynomial statements. *)
From Coq Require Import List Arith NArith Lia Bool Permutation.
From Verif Require Import FieldDef ArithModel ArithSpec ArithProofs SparseModel SparseSpec SparseProofs SparseProofs2 TModel TProofs
  GadgetModel GadgetSpec CircModel CircSpec CircProofs SProofs SyModel SyProofs2 TraceModel TraceProofs ClaimModel SatProofs
  StageModel StageSpec StageProofs StageProofs2 CompileModel CompileSpec CompileProofs CompileProofs2 Props_Stage ParSpec ParProofs.
Import ListNotations.
Local Open Scope nat_scope.

Section Staged2.
  Context {F : Field}.
  Add Field FFcs : (f_theory F).

  Lemma strip_subs (p q : prog F) : strip p = strip q -> sub_rows p = [] -> sub_rows q = [].
  Proof.
    revert q. induction p; intros q; destruct q; cbn [strip sub_rows]; intros E; try discriminate; inversion E; auto.
  Qed.
  Lemma strip_subsizes (p q : prog F) : strip p = strip q -> sub_sizes p = sub_sizes q.
  Proof.
    revert q. induction p; intros q; destruct q; cbn [strip sub_sizes]; intros E; try discriminate; inversion E; auto.
    match goal with H : strip p1 = strip _, H2 : strip p2 = strip _ |- _ =>
      rewrite (IHp1 _ H), (IHp2 _ H2); destruct (strip_counts _ _ H) as (E1 & E2 & E3) end.
    unfold scope_size. now rewrite E1, E2, E3.
  Qed.
  Lemma strip_app (p q : prog F) o : strip p = strip q -> strip (prog_app p o) = strip (prog_app q o).
  Proof.
    revert q. induction p; intros q; destruct q; cbn [strip prog_app]; intros E; try discriminate; auto; inversion E; f_equal; auto.
  Qed.
  Lemma strip_sizes (p q : prog F) outs : strip p = strip q -> sizes (orchestrate p outs) = sizes (orchestrate q outs).
  Proof.
    intros E. apply (strip_app p q (enforce_outputs outs)) in E. unfold sizes, orchestrate. cbn [sub_sizes]. f_equal.
    - unfold scope_size. cbn [own_gates own_allocs own_cons]. destruct (strip_counts _ _ E) as (-> & -> & ->). reflexivity.
    - now apply strip_subsizes.
  Qed.
  Lemma strip_allocs (vs ws : list F) (p q : prog F) : length vs = length ws -> strip p = strip q -> strip (allocs vs p) = strip (allocs ws q).
  Proof.
    revert ws. induction vs as [|v vs IH]; destruct ws as [|w ws]; intros L E; try discriminate; [exact E|].
    change (strip (PAlloc v (allocs vs p)) = strip (PAlloc w (allocs ws q))). cbn [strip]. f_equal. apply IH; auto.
  Qed.

  Definition zipst (stages : list (nat * nat)) (vs : list (list F)) : list (nat * list F) := combine (map fst stages) vs.
  Lemma zipst_fst stages vs : length vs = length stages -> map fst (zipst stages vs) = map fst stages.
  Proof.
    unfold zipst. revert vs. induction stages as [|s l IH]; destruct vs; intros E; try discriminate; [reflexivity|].
    cbn [map combine fst]. f_equal. apply IH. now injection E.
  Qed.
  Lemma zipst_length stages vs : length vs = length stages -> length (zipst stages vs) = length stages.
  Proof. intros E. rewrite <- (map_length fst), zipst_fst, map_length; auto. Qed.
  Lemma zipst_widths stages vs : map (@length F) vs = map snd stages ->
    map (fun s => (fst s, length (snd s))) (zipst stages vs) = stages.
  Proof.
    unfold zipst. revert vs. induction stages as [|[v w] l IH]; destruct vs as [|x vs]; intros E; try discriminate; [reflexivity|].
    cbn [map snd fst] in E. injection E as E1 E2. cbn [map combine fst snd]. rewrite E1. f_equal. now apply IH.
  Qed.
  Lemma zipst_fit stages vs : fits_ok stages = true -> map (@length F) vs = map snd stages ->
    Forall (fun s => length (snd s) <= fst s) (zipst stages vs).
  Proof.
    unfold zipst, fits_ok. revert vs. induction stages as [|[v w] l IH]; destruct vs as [|x vs]; intros H E; try discriminate; [constructor|].
    cbn [map snd fst] in E. injection E as E1 E2. cbn [forallb fst snd] in H. apply andb_true_iff in H. destruct H as [H1 H2].
    apply Nat.leb_le in H1. constructor; [cbn [fst snd]; lia|]. now apply IH.
  Qed.
  Lemma zipst_nth stages vs i : length vs = length stages -> i < length stages ->
    nth_error (zipst stages vs) i = Some (fst (nth i stages (0, 0)), nth i vs []).
  Proof.
    unfold zipst. revert vs i. induction stages as [|s l IH]; destruct vs as [|x vs]; intros i E H; try discriminate; [cbn in H; lia|].
    destruct i as [|i]; [reflexivity|]. cbn [map combine nth_error nth]. apply IH; [now injection E|cbn in H; lia].
  Qed.
  Lemma flat_vals_nth : forall (st : list (nat * list F)) i v out j, Forall (fun s => length (snd s) <= fst s) st ->
    nth_error st i = Some (v, out) -> j < length out ->
    nth_error (flat_vals F st) (2 * (stage_start (map fst st) i - 1) + j) = Some (nth j out f0).
  Proof.
    induction st as [|[v0 o0] st IH]; intros i v out j Hf Hi Hj; [destruct i; discriminate|].
    inversion Hf as [|? ? H1 H2]; subst. cbn [fst snd] in H1. unfold flat_vals. cbn [flat_map fst snd]. fold (flat_vals F st).
    pose proof (padded_length F v0 o0 H1) as PL.
    destruct i as [|i]; cbn [nth_error] in Hi.
    - injection Hi as -> ->. change (stage_start (map fst ((v, out) :: st)) 0) with 1. cbn [Nat.sub Nat.mul Nat.add].
      unfold padded. rewrite <- app_assoc, nth_error_app1 by exact Hj. apply nth_error_nth'. exact Hj.
    - cbn [map fst]. rewrite start_cons. pose proof (start_pos (map fst st) i).
      rewrite nth_error_app2 by lia. rewrite PL.
      replace (2 * ((v0 + 1) / 2 + stage_start (map fst st) i - 1) + j - 2 * ((v0 + 1) / 2)) with
        (2 * (stage_start (map fst st) i - 1) + j) by lia.
      now apply (IH i v out j).
  Qed.
  Lemma pairs_of_list (l : list F) G : length l = 2 * G ->
    flat_map (fun t => [nth (2 * t) l f0; nth (2 * t + 1) l f0]) (seq 0 G) = l.
  Proof.
    intros H. set (f := fun t => nth (2 * t) l f0). set (h := fun t => nth (2 * t + 1) l f0).
    change (flat_map (fun t => [f t; h t]) (seq 0 G) = l).
    apply nth_ext with (d := f0) (d' := f0); [rewrite (pairs_length f h); now symmetry|]. rewrite (pairs_length f h). intros i Hi.
    rewrite (nth_flat_pairs F f h) by exact Hi. cbn [Nat.add]. unfold f, h.
    pose proof (Nat.div_mod i 2 ltac:(lia)) as D. destruct (Nat.even i) eqn:E.
    - apply Nat.even_spec in E. destruct E as [m Em]. subst i. rewrite (Nat.mul_comm 2 m), Nat.div_mul by lia. f_equal. lia.
    - assert (O : Nat.odd i = true) by (unfold Nat.odd; now rewrite E). apply Nat.odd_spec in O. destruct O as [m Em]. subst i.
      replace ((2 * m + 1) / 2) with m; [reflexivity|]. apply Nat.div_unique with (r := 1); lia.
  Qed.

  Lemma staged_wires stages (vs : list (list F)) : fits_ok stages = true -> map (@length F) vs = map snd stages ->
    exists wires, length wires = 2 * nstage stages /\ forall i j, i < length stages -> j < snd (nth i stages (0, 0)) ->
       nth_error wires (2 * (stage_start (map fst stages) i - 1) + j) = Some (nth j (nth i vs []) f0).
  Proof.
    intros Hf Hl. exists (flat_vals F (zipst stages vs)).
    assert (Ll : length vs = length stages) by (rewrite <- (map_length (@length F)), Hl, map_length; reflexivity).
    split; [rewrite flat_vals_length by (now apply zipst_fit); rewrite zipst_fst, zipst_length by exact Ll; reflexivity|].
    intros i j Hi Hj.
    assert (Lv : length (nth i vs []) = snd (nth i stages (0, 0))).
    { rewrite <- (map_nth (@length F)), Hl. exact (map_nth snd stages (0, 0) i). }
    rewrite <- (zipst_fst stages vs Ll) at 1. eapply flat_vals_nth; [now apply zipst_fit|now apply zipst_nth|].
    now rewrite Lv.
  Qed.
  Lemma holds_staged n alpha stages (k : staged F) body outs vs r :
    generic_staged k -> sprog stages k = Some (body, outs) -> list_sum (map fst (sizes (orchestrate body outs))) <= n ->
    map (@length F) vs = map snd stages -> holds (k F f1 vs) r ->
    exists q, (forall f, length f = 2 * nstage stages -> strip (allocs f q) = strip body) /\ sub_rows q = [] /\
      let R := trace_rows F alpha (allocs (flat_vals F (zipst stages vs)) q) in
        satisfied n (map (ra F) R) (map (rb F) R) (map (rc F) R) (map (rd F) R) body outs (map (ew F F) r).
  Proof.
    intros Hk Hs Hn Hl Hh. destruct (sprog_inv _ _ _ _ Hs) as (Hf & res & Hc & -> & ->). clear Hs.
    set (G := nstage stages) in *. set (cont := fst (compile _ _)) in *. set (flat := flat_vals F (zipst stages vs)).
    assert (Ll : length vs = length stages) by (rewrite <- (map_length (@length F)), Hl, map_length; reflexivity).
    assert (Lf : length flat = 2 * G).
    { unfold flat. rewrite flat_vals_length by now apply zipst_fit. rewrite zipst_fst, zipst_length by exact Ll. reflexivity. }
    assert (Hag : agree (k wref WOne (guards_of stages)) (k F f1 vs) ([f0; f1; f0; alpha] ++ flat)).
    { apply staged_agree; auto. intros i j Hi Hj.
      assert (Lv : length (nth i vs []) = snd (nth i stages (0, 0))).
      { rewrite <- (map_nth (@length F)), Hl. exact (map_nth snd stages (0, 0) i). }
      unfold flat. rewrite <- (zipst_fst stages vs Ll) at 1. eapply flat_vals_nth; [now apply zipst_fit|now apply zipst_nth|].
      now rewrite Lv. }
    assert (Le : length ([f0; f1; f0; alpha] ++ flat) = 4 + 2 * G) by (rewrite app_length, Lf; reflexivity).
    destruct (holds_sem _ _ _ _ Hag Hh) as (q & res' & Hq & Hr & Hok & Hv). rewrite Le in Hq, Hr, Hv.
    rewrite Hc in Hr. injection Hr as <-. fold cont in Hq, Hv.
    assert (Sq : sub_rows q = []).
    { apply (strip_subs cont); [now symmetry|]. unfold cont. apply compile_subrows. }
    exists q. split; [|split; [exact Sq|]].
    { intros f L. apply strip_allocs; [now rewrite repeat_length|exact Hq]. }
    intros R.
    assert (ER : R = (f0, f1, f0, alpha) :: map (fun t => (f0, nth (2 * t) flat f0, f0, nth (2 * t + 1) flat f0)) (seq 0 G) ++ rows false q).
    { unfold R, trace_rows. rewrite (rows_allocs F G) by exact Lf. rewrite sub_rows_allocs, Sq. cbn [concat]. now rewrite app_nil_r. }
    assert (LR : length R <= n).
    { rewrite (allocs_gates F G) in Hn by apply repeat_length. rewrite ER. cbn [length]. rewrite !app_length, map_length, seq_length in *.
      rewrite (strip_rows _ _ false Hq). lia. }
    unfold satisfied. set (val := placed _ _).
    assert (Hval : forall i row, nth_error R i = Some row -> row_at val i = row).
    { intros i [[[xa xb] xc] xd] Hi. unfold row_at, val, placed, columns. change (gate_off _ 0) with 0. cbn [Nat.add].
      repeat match goal with |- context [nth i (map ?f R) f0] =>
        rewrite (nth_error_nth (map f R) i (x := f (xa, xb, xc, xd)) f0) by now rewrite nth_error_map, Hi end.
      reflexivity. }
    assert (Rok : Forall row_ok R).
    { rewrite ER. constructor; [split; ring|]. apply Forall_app. split; [|apply Hok]. apply Forall_forall. intros x Hx.
      apply in_map_iff in Hx. destruct Hx as (t & <- & _). split; ring. }
    split.
    - intros i Hi. destruct (nth_error R i) as [[[[xa xb] xc] xd]|] eqn:Hr.
      + specialize (Hval i _ Hr). unfold row_at, val, placed, columns in Hval. change (gate_off _ 0) with 0 in Hval.
        cbn [Nat.add] in Hval. rewrite Forall_forall in Rok. specialize (Rok _ (nth_error_In _ _ Hr)).
        destruct Rok as [K1 K2]. split; congruence.
      + apply nth_error_None in Hr. rewrite !nth_overflow by now rewrite map_length. split; ring.
    - assert (H0 : nth_error R 0 = Some (f0, f1, f0, alpha)) by (now rewrite ER).
      assert (Hone : one_val val = f1). { specialize (Hval 0 _ H0). unfold row_at in Hval. unfold one_val. congruence. }
      assert (Es : system_wires val = [f0; f1; f0; alpha]).
      { specialize (Hval 0 _ H0). unfold row_at in Hval. unfold system_wires. congruence. }
      assert (Hst : forall t, t < G -> val 0 KB (1 + t) = nth (2 * t) flat f0 /\ val 0 KD (1 + t) = nth (2 * t + 1) flat f0).
      { intros t Ht. assert (Hr : nth_error R (1 + t) = Some (f0, nth (2 * t) flat f0, f0, nth (2 * t + 1) flat f0)).
        { rewrite ER. cbn [Nat.add nth_error]. rewrite nth_error_app1 by now rewrite map_length, seq_length.
          rewrite nth_error_map, (nth_error_nth' _ 0) by now rewrite seq_length. rewrite seq_nth by exact Ht. reflexivity. }
        specialize (Hval _ _ Hr). unfold row_at in Hval. split; congruence. }
      assert (Ew : flat_map (fun t => [val 0 KB (1 + t); val 0 KD (1 + t)]) (seq 0 G) = flat).
      { rewrite <- (pairs_of_list flat G Lf). rewrite !flat_map_concat_map. f_equal. apply map_ext_in. intros t Ht.
        apply in_seq in Ht. destruct (Hst t ltac:(lia)) as [-> ->]. reflexivity. }
      destruct (Hv val (1 + G) None Hone) as [I1 I2].
      + intros i row Hi. apply (Hval (1 + G + i)). rewrite ER. cbn [Nat.add nth_error]. cbn [half] in Hi.
        rewrite nth_error_app2 by (rewrite map_length, seq_length; lia). rewrite map_length, seq_length.
        now replace (G + i - G) with i by lia.
      + discriminate.
      + unfold linear_ok. cbv zeta. rewrite (sem_allocs F val G) by apply repeat_length. rewrite Ew, Es.
        split; [exact I1|]. split; [|split; [rewrite Hone; exact I2|exact Hone]].
        unfold cont. match goal with |- Forall _ (sm_subs (sem ?v (fst (compile ?p ?m)) ?s ?t ?g ?av ?env)) =>
          destruct (compile_subs p v m s t g av env) as [-> _] end. constructor.
  Qed.
End Staged2.

Section Polys.
  Variable F : Field.
  Add Field FFct : (f_theory F).
  Open Scope f_scope.
  Notation poly := (list (nat * list F)).

  Lemma gate_of_wire n k g : (g < n)%nat ->
    (match k with KA => 2 * n + g | KB => 2 * n - 1 - g | KC => g | KD => 4 * n - 1 - g end < 4 * n)%nat /\
    gate_of n (match k with KA => 2 * n + g | KB => 2 * n - 1 - g | KC => g | KD => 4 * n - 1 - g end)%nat = g.
  Proof.
    intros H. split; [destruct k; lia|]. unfold gate_of.
    destruct k; repeat match goal with |- context [Nat.ltb ?a ?b] => destruct (Nat.ltb_spec a b); try lia end.
  Qed.
  (** a polynomial that passes a mask has no wires outside it *)
  Lemma masked_wires n skip num m (q : poly) ys k g : mask_new n skip num = Some m -> wf 0 (4 * n) q ->
    NoDup ys -> (4 * n <= length ys)%nat ->
    (forall y, In y ys -> exists s, mask_project n m y = Some s /\ p_revdot (4 * n) q s = 0) ->
    (0 < g < n)%nat -> ~ (skip <= g < skip + num)%nat -> poly_wires n q k g = 0.
  Proof.
    intros Em W ND L HP Hg Ho. destruct (C24_mask_enforces F n skip num m q Em W) as [_ K].
    destruct (gate_of_wire n k g ltac:(lia)) as [B1 B2]. unfold poly_wires. apply (K ys ND L HP); [exact B1|].
    rewrite B2. unfold active. destruct (Nat.eqb_spec g 0), (Nat.leb_spec skip g), (Nat.ltb_spec g (skip + num)); cbn; auto; lia.
  Qed.
  Lemma start_last (stages0 : list (nat * nat)) v w :
    (skip_gates (rev (map fst stages0)) + stage_gates v = stage_start (map fst (stages0 ++ [(v, w)])) (length (stages0 ++ [(v, w)])))%nat.
  Proof.
    pose proof (skip_start (map fst stages0) (length stages0)) as H. rewrite firstn_all2 in H by (rewrite map_length; lia).
    rewrite H, ceil2. unfold stage_start. rewrite map_app, app_length. cbn [map fst length].
    rewrite !firstn_all2 by (rewrite ?app_length, ?map_length; cbn [length]; lia). rewrite map_app, list_sum_app. cbn [map list_sum fold_right]. lia.
  Qed.
  Lemma stage_wires_only n (stages0 : list (nat * nat)) v w (rf r : poly) (rs : nat -> poly) ys k i g :
    let stages := stages0 ++ [(v, w)] in let vals := map fst stages in
    wf 0 (4 * n) rf -> (forall i, (i < length stages)%nat -> wf 0 (4 * n) (rs i)) ->
    (forall e, coeff_at r e = coeff_at rf e + fsum (length stages) (fun i => coeff_at (rs i) e)) ->
    NoDup ys -> (4 * n <= length ys)%nat ->
    (forall y, In y ys -> exists m s, stage_final_mask n (rev (map fst stages0)) v = Some m /\
       mask_project n m y = Some s /\ p_revdot (4 * n) rf s = 0) ->
    (forall i v' w', nth_error stages i = Some (v', w') -> forall y, In y ys -> exists m s,
       stage_mask n (rev (firstn i vals)) v' = Some m /\ mask_project n m y = Some s /\ p_revdot (4 * n) (rs i) s = 0) ->
    (g < n)%nat -> in_stage vals i g -> poly_wires n r k g = poly_wires n (rs i) k g.
  Proof.
    intros stages vals Wf Ws Sum ND L Mf Ms Hg Hin.
    assert (Gpos : (1 <= g < stage_start vals (length vals))%nat) by (apply stage_cover; eauto).
    assert (Hi : (i < length stages)%nat).
    { destruct Hin as (v' & Hv & _). unfold vals in Hv. rewrite <- (map_length fst stages). apply nth_error_Some. congruence. }
    unfold poly_wires at 1. rewrite Sum. fold (poly_wires n rf k g).
    assert (Hy : exists y, In y ys) by (destruct ys as [|y ?]; [cbn in L; lia|exists y; now left]).
    assert (Z : poly_wires n rf k g = 0).
    { destruct Hy as [y0 Hy]. destruct (Mf y0 Hy) as (m & s0 & Em & _). unfold stage_final_mask in Em.
      destruct (C24_mask_bounds n (skip_gates (rev (map fst stages0)) + stage_gates v) 0) as (_ & _ & K). destruct (K m Em) as [Em' _].
      unfold mask_new_final in Em. destruct (Nat.eqb _ 0); [discriminate|]. destruct (Nat.ltb _ _); [discriminate|]. injection Em as <-.
      cbn [fst snd] in Em'. eapply masked_wires; [exact Em'|exact Wf|exact ND|exact L| |lia|].
      - intros y Hy'. destruct (Mf y Hy') as (m' & s & Em2 & Es & Er). exists s. split; [|exact Er].
        destruct (K m' Em2) as [_ _]. unfold stage_final_mask, mask_new_final in Em2.
        destruct (Nat.eqb _ 0); [discriminate|]. destruct (Nat.ltb _ _); [discriminate|]. injection Em2 as <-. exact Es.
      - rewrite (start_last stages0 v w). fold stages vals. unfold vals in Gpos at 2. rewrite map_length in Gpos. lia. }
    rewrite Z.
    rewrite (fsum_single F (length stages) i).
    - fold (poly_wires n (rs i) k g). ring.
    - exact Hi.
    - intros j Hj Ne.
      fold (poly_wires n (rs j) k g).
      destruct (nth_error stages j) as [[v' w']|] eqn:Nj; [|apply nth_error_None in Nj; lia].
      destruct Hy as [y0 Hy]. destruct (Ms j v' w' Nj y0 Hy) as (m & s0 & Em & _). unfold stage_mask in Em.
      rewrite skip_start, ceil2 in Em.
      eapply masked_wires; [exact Em|now apply Ws|exact ND|exact L| |lia|].
      + intros y Hy'. destruct (Ms j v' w' Nj y Hy') as (m' & s & Em2 & Es & Er). exists s. split; [|exact Er].
        unfold stage_mask in Em2. rewrite skip_start, ceil2 in Em2. congruence.
      + intros Hin2. apply Ne. apply (stage_disjoint vals j i g); [|exact Hin]. exists v'. split; [|exact Hin2].
        unfold vals. now rewrite nth_error_map, Nj.
  Qed.

  Lemma staged_sound n (stages0 : list (nat * nat)) v w (k : staged F) body outs outputs (rf r : poly) (rs : nat -> poly) ys :
    let stages := stages0 ++ [(v, w)] in let vals := map fst stages in let p := orchestrate body outs in
    generic_staged k -> sprog stages k = Some (body, outs) ->
    (list_sum (map fst (sizes p)) <= n)%nat -> (list_sum (map snd (sizes p)) < 4 * n)%nat -> length outputs = length outs ->
    wf 0 (4 * n) rf -> (forall i, (i < length stages)%nat -> wf 0 (4 * n) (rs i)) -> wf 0 (4 * n) r ->
    (forall e, coeff_at r e = coeff_at rf e + fsum (length stages) (fun i => coeff_at (rs i) e)) ->
    NoDup ys -> (4 * n <= length ys)%nat ->
    (forall y, In y ys -> exists m s, stage_final_mask n (rev (map fst stages0)) v = Some m /\
       mask_project n m y = Some s /\ p_revdot (4 * n) rf s = 0) ->
    (forall i v' w', nth_error stages i = Some (v', w') -> forall y, In y ys -> exists m s,
       stage_mask n (rev (firstn i vals)) v' = Some m /\ mask_project n m y = Some s /\ p_revdot (4 * n) (rs i) s = 0) ->
    (forall y, In y ys -> exists zs, NoDup zs /\ (4 * n <= length zs)%nat /\ forall z, In z zs -> passes F n r body outs outputs y z) ->
    exists res, holds (k F f1 (map (fun i => stage_values (poly_wires n (rs i)) stages i) (seq 0 (length stages)))) res /\
      map (ew F F) res = outputs.
  Proof.
    intros stages vals p Hk Hs Hg Hc Hl Wf Ws Wr Sum ND L Mf Ms HP.
    destruct (staged_owned stages k body outs Hk Hs) as [Ho _].
    pose proof (poly_sound F n body outs outputs r ys Hg Hc Ho Wr Hl ND L HP) as Hsat.
    destruct (staged_holds n stages k body outs outputs _ _ _ _ Hk Hs Hg Hsat) as (res & Hh & Hm).
    exists res. split; [|exact Hm].
    destruct (sprog_inv _ _ _ _ Hs) as (Hf & res' & _ & _ & Eb).
    unfold all_values in Hh. erewrite map_ext_in; [exact Hh|]. intros i Hi. apply in_seq in Hi. cbn [Nat.add] in Hi.
    unfold stage_values. apply map_ext_in. intros j Hj. apply in_seq in Hj. cbn [Nat.add] in Hj. unfold stage_wire.
    destruct (nth_error stages i) as [[v' w']|] eqn:Ni; [|apply nth_error_None in Ni; lia].
    rewrite (nth_error_nth _ _ _ Ni) in Hj. cbn [snd] in Hj.
    assert (w' <= v')%nat. { unfold fits_ok in Hf. rewrite forallb_forall in Hf. specialize (Hf _ (nth_error_In _ _ Ni)). now apply Nat.leb_le in Hf. }
    set (g := (stage_start (map fst stages) i + j / 2)%nat).
    pose proof (ceil2_bounds v') as CB. rewrite ceil2 in CB.
    pose proof (Nat.div_mod j 2 ltac:(lia)) as DM. pose proof (Nat.mod_upper_bound j 2 ltac:(lia)) as MB.
    assert (Hin : in_stage vals i g). { exists v'. split; [unfold vals; now rewrite nth_error_map, Ni|]. unfold g, vals. lia. }
    assert (Gn : (g < n)%nat).
    { assert (GS : (1 <= g < stage_start vals (length vals))%nat) by (apply stage_cover; eauto).
      subst body. unfold p in Hg. rewrite (allocs_gates F (nstage stages)) in Hg by apply repeat_length. unfold nstage in Hg.
      unfold vals in GS at 2. rewrite map_length in GS. fold vals in Hg. lia. }
    assert (X : forall kk, columns (col F n r KA) (col F n r KB) (col F n r KC) (col F n r KD) kk g = poly_wires n (rs i) kk g).
    { intros kk. rewrite <- (stage_wires_only n stages0 v w rf r rs ys kk i g Wf Ws Sum ND L Mf Ms Gn Hin).
      destruct kk; cbn [columns]; now rewrite col_nth. }
    rewrite X. reflexivity.
  Qed.

  Lemma staged_complete n (stages0 : list (nat * nat)) v w (k : staged F) body outs vs res (alpha0 : F) (alphas : nat -> F) :
    let stages := stages0 ++ [(v, w)] in let vals := map fst stages in let p := orchestrate body outs in
    generic_staged k -> sprog stages k = Some (body, outs) ->
    (list_sum (map fst (sizes p)) <= n)%nat -> (list_sum (map snd (sizes p)) < 4 * n)%nat ->
    map (@length F) vs = map snd stages -> holds (k F f1 vs) res ->
    exists (rf r : poly) (rs : nat -> poly),
      wf 0 (4 * n) rf /\ coeff_at rf 0 = 0 /\ wf 0 (4 * n) r /\
      (forall i, (i < length stages)%nat ->
         stage_rx n (rev (firstn i vals)) (fst (nth i stages (0, 0)%nat)) (alphas i) (nth i vs []) = Some (rs i) /\
         wf 0 (4 * n) (rs i) /\ stage_values (poly_wires n (rs i)) stages i = nth i vs []) /\
      (forall e, coeff_at r e = coeff_at rf e + fsum (length stages) (fun i => coeff_at (rs i) e)) /\
      (forall y, exists m s, stage_final_mask n (rev (map fst stages0)) v = Some m /\
         mask_project n m y = Some s /\ p_revdot (4 * n) rf s = 0) /\
      (forall i v' w', nth_error stages i = Some (v', w') -> forall y, exists m s,
         stage_mask n (rev (firstn i vals)) v' = Some m /\ mask_project n m y = Some s /\ p_revdot (4 * n) (rs i) s = 0) /\
      forall y z, passes F n r body outs (map (ew F F) res) y z.
  Proof.
    intros stages vals p Hk Hs Hg Hc Hl Hh.
    set (alpha := alpha0 + fsum (length stages) alphas).
    destruct (staged_owned stages k body outs Hk Hs) as [Ho _].
    destruct (holds_staged n alpha stages k body outs vs res Hk Hs Hg Hl Hh) as (q & Hq & Sq & Hsat).
    destruct (sprog_inv _ _ _ _ Hs) as (Hf & rr & Hcc & Eo & _).
    set (st := zipst stages vs) in *.
    assert (Ll : length vs = length stages) by (rewrite <- (map_length (@length F)), Hl, map_length; reflexivity).
    assert (Est : map (fun s => (fst s, length (snd s))) st = stages) by now apply zipst_widths.
    assert (Lst : length st = length stages) by now apply zipst_length.
    assert (Fst : map fst st = vals) by now apply zipst_fst.
    set (final := allocs (repeat 0 (2 * nstage stages)) q).
    assert (Ea : add_stages 4 (map (fun s => (fst s, length (snd s))) st) q = Some (guards_of stages, final)).
    { rewrite Est, add_stages_ok. fold (fits_ok stages). rewrite Hf. reflexivity. }
    assert (Esz : sizes (orchestrate final outs) = sizes p) by (apply strip_sizes, Hq, repeat_length).
    destruct (C23_sum F n st q outs _ _ alpha0 alphas (fun l => l) (fun l => Permutation_refl l) Ea) as (Ef & tr & ftr & Q & QF & rs & T1 & T2 & A1 & A2 & A3 & Sum).
    { now rewrite Esz. }
    rewrite Lst in A1, Sum. fold alpha in A1. rewrite Fst in A3. fold (flat_vals F st) in Ef, T1.
    set (full := allocs (flat_vals F st) q) in *.
    set (R := trace_rows F alpha full) in *.
    assert (LR : (length R <= n)%nat). { unfold R. rewrite (trace_rows_length F alpha full outs), Ef, Esz. exact Hg. }
    assert (EQ : trace_build (4 * n) n (map (ra F) R) (map (rb F) R) (map (rc F) R) (map (rd F) R) = Some Q).
    { rewrite trace_eval_ok in T1 by (intros; apply Permutation_refl). injection T1 as <-. rewrite <- Ef in A1. rewrite assemble_ok in A1.
      fold R in A1. destruct (Nat.ltb_spec n (length R)); [lia|]. exact A1. }
    assert (WQ : wf 0 (4 * n) Q).
    { destruct (trace_build_ok F n (map (ra F) R) (map (rb F) R) (map (rc F) R) (map (rd F) R)) as (Q' & E1 & W1 & _);
        try (rewrite map_length; exact LR). rewrite E1 in EQ. injection EQ as <-. exact W1. }
    assert (WF : wf 0 (4 * n) QF /\ coeff_at QF 0 = 0).
    { rewrite trace_eval_ok in T2 by (intros; apply Permutation_refl). injection T2 as <-. rewrite assemble_ok in A2.
      assert (LR2 : (length (trace_rows F alpha0 final) <= n)%nat) by (rewrite (trace_rows_length F alpha0 final outs), Esz; exact Hg).
      destruct (Nat.ltb_spec n (length (trace_rows F alpha0 final))); [lia|].
      set (R2 := trace_rows F alpha0 final) in *.
      destruct (trace_build_ok F n (map (ra F) R2) (map (rb F) R2) (map (rc F) R2) (map (rd F) R2)) as (Q' & E1 & W1 & C1);
        try (rewrite map_length; exact LR2). rewrite E1 in A2. injection A2 as <-. split; [exact W1|]. rewrite C1. unfold trace_coeff.
      destruct (Nat.ltb_spec 0 n) as [_|Hn0]; [reflexivity|]. exfalso. apply (Nat.nle_succ_0 0). apply (Nat.le_trans _ n); [|exact Hn0].
      eapply Nat.le_trans; [|exact LR2]. unfold R2, trace_rows. cbn [length]. lia. }
    destruct WF as [WF WF0].
    assert (Hstage : forall i, (i < length stages)%nat ->
      stage_rx n (rev (firstn i vals)) (fst (nth i stages (0, 0)%nat)) (alphas i) (nth i vs []) = Some (rs i)).
    { intros i Hi. apply A3. now apply zipst_nth. }
    exists QF, Q, rs. split; [exact WF|]. split; [exact WF0|]. split; [exact WQ|]. split; [|split; [exact Sum|]].
    - intros i Hi. specialize (Hstage i Hi). split; [exact Hstage|].
      destruct (C23_stage_polynomial F n (rev (firstn i vals)) (fst (nth i stages (0, 0)%nat)) (alphas i) (nth i vs [])) as [_ K].
      destruct (K _ Hstage) as (W & Kv & _). split; [exact W|].
      assert (Lv : length (nth i vs []) = snd (nth i stages (0, 0)%nat)).
      { rewrite <- (map_nth (@length F)), Hl. exact (map_nth snd stages (0, 0)%nat i). }
      unfold stage_values. apply nth_ext with (d := 0) (d' := 0); [now rewrite map_length, seq_length|].
      rewrite map_length, seq_length. intros j Hj. rewrite nth_map_seq by exact Hj.
      rewrite <- Kv.
      2:{ destruct (nth_error stages i) as [[v' w']|] eqn:Ni; [|apply nth_error_None in Ni; lia].
          rewrite (nth_error_nth _ _ _ Ni) in *. cbn [fst snd] in *.
          assert (w' <= v')%nat. { unfold fits_ok in Hf. rewrite forallb_forall in Hf. specialize (Hf _ (nth_error_In _ _ Ni)). now apply Nat.leb_le in Hf. }
          pose proof (ceil2_bounds v') as CB. rewrite ceil2 in CB. lia. }
      unfold stage_wire, poly_wires. rewrite skip_start. fold vals. destruct (Nat.even j); f_equal; lia.
    - assert (Hmf : forall y, exists m s, stage_final_mask n (rev (map fst stages0)) v = Some m /\
         mask_project n m y = Some s /\ p_revdot (4 * n) QF s = 0).
      { intros y. destruct (C23_masked F n y) as [_ M2]. rewrite Est in Ea. rewrite <- map_rev.
        apply (M2 stages q (guards_of stages) final outs alpha0 ftr QF (fun l => l) (fun l => Permutation_refl l) Ea T2 A2 (rev stages0) v w).
        unfold stages. rewrite rev_app_distr. reflexivity. }
      split; [exact Hmf|]. split.
      + intros i v' w' Ni y. destruct (C23_masked F n y) as [M1 _].
        assert (Hi : (i < length stages)%nat) by (apply nth_error_Some; congruence).
        specialize (Hstage i Hi). rewrite (nth_error_nth _ _ _ Ni) in Hstage. cbn [fst] in Hstage. eapply M1. exact Hstage.
      + intros y z. eapply sat_complete; try exact Hsat; try exact EQ; auto; try (rewrite map_length; exact LR).
        destruct Hsat as [_ (_ & _ & Hout & _)]. rewrite <- Hout. apply map_length.
  Qed.
End Polys.
