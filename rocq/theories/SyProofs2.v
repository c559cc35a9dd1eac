(** The s(X, y) evaluator computes, for every choice of gate wire values, the
    same combination as the program's reading. *)
From Coq Require Import List Arith Lia Bool Ring Field.
From Verif Require Import FieldDef ArithModel ArithSpec ArithProofs FFTModel FFTProofs SparseModel SparseSpec
  SparseProofs SparseProofs2 CircModel SyModel CircSpec CircProofs CircProofs2 SyProofs.
Import ListNotations.
Local Opaque list_sum.

(** the handles held by an environment *)
Definition henv (env : list (option widx)) : list widx :=
  flat_map (fun o => match o with Some w => [w] | None => [] end) env.
Lemma henv_app a b : henv (a ++ b) = henv a ++ henv b.
Proof. apply flat_map_app. Qed.
Lemma henv_some l : henv (map Some l) = l.
Proof. induction l; simpl; congruence. Qed.

Section SyRunP.
  Variable F : Field.
  Add Field FFy3 : (f_theory F).
  Open Scope f_scope.
  Variables (n NC : nat) (y : F).
  Hypothesis Hy : y <> 0.
  Variable szs : list (nat * nat).
  Let G := list_sum (map fst szs).
  Hypothesis Hgates : (G <= n)%nat.
  Hypothesis Hpos : (0 < G)%nat.
  Hypothesis Hcons : (list_sum (map snd szs) <= NC - 1)%nat.
  Variable v : kind -> nat -> F.
  Let plan := floor_plan szs.
  Let val := placed szs v.
  Let one := v KB 0%nat.
  Local Notation DD := (D F v).
  Local Notation GOK := (gok G).
  Local Notation INV := (Inv F G v).
  Local Notation PHI := (phi F G v).

  Inductive erel (den : nat -> F) : list (option widx) -> list F -> list bool -> Prop :=
  | er_nil : erel den [] [] []
  | er_live w x e vs l : GOK w -> DD den w = x -> erel den e vs l ->
      erel den (Some w :: e) (x :: vs) (true :: l)
  | er_dead x e vs l : erel den e vs l -> erel den (None :: e) (x :: vs) (false :: l).

  Lemma erel_app den e1 v1 l1 e2 v2 l2 :
    erel den e1 v1 l1 -> erel den e2 v2 l2 -> erel den (e1 ++ e2) (v1 ++ v2) (l1 ++ l2).
  Proof. intros H1 H2. induction H1; cbn [app]; auto; constructor; auto. Qed.
  Lemma erel_some den ws : Forall GOK ws -> erel den (map Some ws) (map (DD den) ws) (repeat true (length ws)).
  Proof. induction ws as [|w ws IH]; intros H; [constructor|]. inversion H; subst. cbn. constructor; auto. Qed.
  Lemma erel_den den den' e vs l : erel den e vs l -> (forall w, In w (henv e) -> DD den' w = DD den w) ->
    erel den' e vs l.
  Proof.
    intros H. induction H as [|w x e vs l Hg Hd Hr IH|x e vs l Hr IH]; intros Hw; [constructor| |].
    - constructor; auto.
      + rewrite <- Hd. apply Hw. left. reflexivity.
      + apply IH. intros w' Hi. apply Hw. right. exact Hi.
    - constructor. auto.
  Qed.
  Lemma erel_gok den e vs l : erel den e vs l -> Forall GOK (henv e).
  Proof. intros H. induction H; simpl; auto. Qed.
  Lemma erel_len den e vs l : erel den e vs l -> length e = length l /\ length vs = length l.
  Proof. intros H. induction H; simpl; lia. Qed.

  Lemma erel_nth den e vs l i o : erel den e vs l -> nth i l false = true ->
    exists w, nth i e None = Some w /\ GOK w /\ DD den w = nth i vs o /\ In w (henv e).
  Proof.
    intros H. revert i. induction H as [|w x e vs l Hg Hd Hr IH|x e vs l Hr IH]; intros [|i] Hi; cbn [nth] in *; try discriminate.
    - exists w. repeat split; auto. left. reflexivity.
    - destruct (IH i Hi) as (w' & A & B & C & E). exists w'. repeat split; auto. right. exact E.
    - destruct (IH i Hi) as (w' & A & B & C & E). exists w'. repeat split; auto.
  Qed.
  Lemma erel_unset den e vs l i w : erel den e vs l -> nth i e None = Some w ->
    erel den (upd e i None) vs (unset l i) /\
    forall j, cnt j (henv e) = ((if is_v j w then 1 else 0) + cnt j (henv (upd e i None)))%nat.
  Proof.
    intros H. revert i. induction H as [|w' x e vs l Hg Hd Hr IH|x e vs l Hr IH]; intros [|i] Hi; cbn [nth] in *; try discriminate.
    - inversion Hi; subst. cbn [upd unset]. split; [constructor; exact Hr|]. reflexivity.
    - destruct (IH i Hi) as [A B]. cbn [upd unset]. split; [constructor; auto|].
      intros j. unfold henv in *. cbn [flat_map app cnt]. rewrite B. lia.
    - destruct (IH i Hi) as [A B]. cbn [upd unset]. split; [constructor; auto|]. exact B.
  Qed.

  Lemma s_get_ok den e vs l r : erel den e vs l -> ref_ok l r = true ->
    exists w, s_get e r = Some w /\ GOK w /\ DD den w = lookup one vs r /\ In w (IB 0 :: henv e).
  Proof.
    intros H Hr. destruct r as [|i]; cbn [s_get lookup ref_ok] in *.
    - exists (IB 0). repeat split; auto. left. reflexivity.
    - destruct (erel_nth den e vs l i one H Hr) as (w & A & B & C & E). exists w. repeat split; auto. right. exact E.
  Qed.

  Lemma lc_gets_ok den e vs l lc : erel den e vs l -> lc_ok l lc = true ->
    exists ops, lc_gets F e lc = Some ops /\
      Forall (op_ok F widx (fun w => In w (IB 0 :: henv e) /\ GOK w)) ops /\
      lin_spec (DD den) ops = lin_spec (lookup one vs) lc.
  Proof.
    intros H. induction lc as [|op lc IH]; intros Hok; unfold lc_gets in *; cbn [map o_all fold_right].
    - exists []. repeat split; auto.
    - unfold lc_ok in Hok. cbn [forallb] in Hok. apply andb_true_iff in Hok. destruct Hok as [Hop Hok].
      destruct (IH Hok) as (ops & E & Fo & Es). unfold o_all in E.
      assert (Q : exists op', lc_get F e op = Some op' /\
        op_ok F widx (fun w => In w (IB 0 :: henv e) /\ GOK w) op' /\
        call_sum (DD den) op' = call_sum (lookup one vs) op /\
        (match op' with LGain c => c_value c | _ => 1 end) = (match op with LGain c => c_value c | _ => 1 end)).
      { destruct op as [w c|c|w|w|ts]; cbn [lc_get].
        - destruct (s_get_ok den e vs l w H Hop) as (w' & A & B & C & Din). rewrite A. cbn [option_map].
          eexists. split; [reflexivity|]. cbn [op_ok call_sum]. rewrite C. auto.
        - eexists. split; [reflexivity|]. cbn [op_ok call_sum]. auto.
        - destruct (s_get_ok den e vs l w H Hop) as (w' & A & B & C & Din). rewrite A. cbn [option_map].
          eexists. split; [reflexivity|]. cbn [op_ok call_sum]. rewrite C. auto.
        - destruct (s_get_ok den e vs l w H Hop) as (w' & A & B & C & Din). rewrite A. cbn [option_map].
          eexists. split; [reflexivity|]. cbn [op_ok call_sum]. rewrite C. auto.
        - assert (T : exists ts', o_all (map (fun t => option_map (fun v0 => (v0, snd t)) (s_get e (fst t))) ts) = Some ts' /\
            Forall (fun t => In (fst t) (IB 0 :: henv e) /\ GOK (fst t)) ts' /\
            lsum (map (fun t => c_value (snd t) * DD den (fst t)) ts') =
            lsum (map (fun t => c_value (snd t) * lookup one vs (fst t)) ts)).
          { clear - H Hop Hpos. induction ts as [|[w c] ts IHt]; cbn [map o_all fold_right].
            - exists []. auto.
            - cbn [forallb fst] in Hop. apply andb_true_iff in Hop. destruct Hop as [Hw Hts].
              destruct (IHt Hts) as (ts' & E1 & E2 & E3). unfold o_all in E1. rewrite E1.
              destruct (s_get_ok den e vs l w H Hw) as (w' & A & B & C & Din). cbn [fst]. rewrite A. cbn [option_map].
              eexists. split; [reflexivity|]. split; [constructor; auto|].
              unfold lsum in *. cbn [map fold_right fst snd]. rewrite E3, C. reflexivity. }
          destruct T as (ts' & E1 & E2 & E3). rewrite E1. cbn [option_map].
          eexists. split; [reflexivity|]. cbn [op_ok call_sum]. auto. }
      destruct Q as (op' & E1 & E2 & E3 & E4). rewrite E1, E.
      eexists. split; [reflexivity|]. split; [constructor; auto|].
      rewrite !lin_spec_cons, E3, E4, Es. reflexivity.
  Qed.

  Lemma s_take_ok den rs : forall e vs l l', erel den e vs l -> take_ok l rs = Some l' ->
    exists e1 ws, s_take e rs = Some (e1, ws) /\ erel den e1 vs l' /\
      map (DD den) ws = map (lookup one vs) rs /\ Forall GOK ws /\ length ws = length rs /\
      forall j, cnt j (henv e) = (cnt j ws + cnt j (henv e1))%nat.
  Proof.
    induction rs as [|[|i] rs IH]; intros e vs l l' H Ht; cbn [take_ok s_take] in *.
    - inversion Ht; subst. exists e, []. repeat split; auto.
    - destruct (IH e vs l l' H Ht) as (e1 & ws & -> & A & B & C & L & E).
      exists e1, (IB 0 :: ws). repeat split; auto.
      + cbn [map lookup]. f_equal. exact B.
      + simpl. congruence.
    - destruct (nth i l false) eqn:Hi; [|discriminate].
      destruct (erel_nth den e vs l i one H Hi) as (w & A & B & C & _). rewrite A.
      destruct (erel_unset den e vs l i w H A) as [H1 H2].
      destruct (IH _ _ _ _ H1 Ht) as (e1 & ws & -> & A1 & B1 & C1 & L1 & E1).
      exists e1, (w :: ws). repeat split; auto.
      + cbn [map lookup]. f_equal; assumption.
      + simpl. congruence.
      + intros j. rewrite H2, E1. cbn [cnt]. lia.
  Qed.

  Lemma s_drop_all_ok den rk : forall e t Hf, INV t (henv e ++ Hf) [] den rk -> Forall GOK (henv e) ->
    exists t', s_drop_all F t e = Some t' /\ INV t' Hf [] den rk /\ PHI den t' = PHI den t.
  Proof.
    induction e as [|[w|] e IH]; intros t Hf HI Hg; cbn [s_drop_all].
    - exists t. auto.
    - unfold henv in HI, Hg. cbn [flat_map app] in HI, Hg. inversion Hg; subst.
      destruct (vt_drop_ok F G v t w _ _ _ _ HI) as (t1 & -> & HI1 & P1); [assumption|].
      destruct (IH t1 Hf HI1) as (t' & E & HI' & P'); [assumption|]. exists t'. split; [exact E|]. split; [exact HI'|congruence].
    - apply IH; assumption.
  Qed.

  (** scope state *)
  Definition avail_ok (a : option widx) (av : option F) : Prop :=
    match a, av with
    | None, None => True
    | Some (ID g), Some x => (g < G)%nat /\ v KD g = x
    | _, _ => False
    end.
  (** value added by the constraints of a scope, starting at power Y *)
  Fixpoint osum (Y : F) (l : list F) : F :=
    match l with [] => 0 | c :: r => Y * c + osum (Y * finv y) r end.
  Lemma osum_peval : forall l k, osum (y ^ (k + length l - 1)) l = y ^ k * peval (rev l) y.
  Proof.
    induction l as [|c l IH]; intros k; cbn [osum rev]; [simpl; ring|].
    rewrite peval_app, rev_length. cbn [peval length].
    replace (k + S (length l) - 1)%nat with (k + length l)%nat by lia.
    destruct l as [|c' l'].
    - cbn. rewrite Nat.add_0_r. ring.
    - assert (E : y ^ (k + length (c' :: l')) * finv y = y ^ (k + length (c' :: l') - 1)).
      { cbn [length]. replace (k + S (length l'))%nat with (S (k + length l')) by lia.
        replace (S (k + length l') - 1)%nat with (k + length l')%nat by lia. cbn [fpow]. field. exact Hy. }
      rewrite E, IH, fpow_add. ring.
  Qed.
  Lemma osum_0 : forall l, osum 0 l = 0.
  Proof.
    induction l as [|c l IH]; cbn [osum]; [reflexivity|].
    replace (0 * finv y) with (0 : F) by ring. rewrite IH. ring.
  Qed.

  Local Notation run := (sy_run F n NC y (finv y) plan).
  Local Opaque used.

  Lemma sy_run_ok : forall p sid nxt g av env vals s t gs Hf den rk live live',
    owned p live = Some live' -> erel den env vals live ->
    gate_off szs sid = gs -> ys_gates F s = (gs + g)%nat -> avail_ok (ys_avail F s) av ->
    (gs + g + used (is_some av) p <= G)%nat ->
    (ys_cons F s + own_cons p <= NC - 1)%nat ->
    slice_at szs nxt (sub_sizes p) -> (1 <= nxt)%nat ->
    INV t (henv env ++ Hf) [] den rk ->
    let r := sem val p sid nxt g av vals in
    exists env' s' t' den' rk',
      run p env s t (nxt - 1) = Some (env', s', t', nxt - 1 + length (sub_sizes p))%nat /\
      erel den' env' (sm_env r) live' /\ INV t' (henv env' ++ Hf) [] den' rk' /\
      (forall w, In w Hf -> DD den' w = DD den w) /\
      ys_gates F s' = (gs + g + used (is_some av) p)%nat /\
      ys_cons F s' = (ys_cons F s + own_cons p)%nat /\
      PHI den' t' = PHI den t + osum (ys_y F s) (sm_own r) + sub_sum F y szs nxt (sm_subs r).
  Proof.
    assert (Hone : one_val val = one) by reflexivity.
    induction p as [|a b c d p IH|a b c p IH|x p IH|lc p IH|lc p IH|w p IH|i p IH|kn ins body IHb outs p IHk];
      intros sid nxt g av env vals s t gs Hf den rk live live' Ho He Hgs Hg Hav Hb Hc Hsl Hn HI r;
      assert (Hval : forall kd, val sid kd g = v kd (gs + g)%nat) by (intros kd; unfold val, placed; rewrite Hgs; reflexivity);
      cbn [owned] in Ho.
    - inversion Ho; subst live'. exists env, s, t, den, rk. unfold r.
      cbn [sy_run sub_sizes length own_cons sem sm_env sm_own sm_subs osum sub_sum]. rewrite !Nat.add_0_r, used_end, Nat.add_0_r.
      split; [reflexivity|]. split; [exact He|]. split; [exact HI|]. split; [auto|]. split; [exact Hg|]. split; [reflexivity|]. ring.
    - rewrite used_gate in *. cbn [sy_run own_cons] in *. rewrite Hg.
      destruct (Nat.eqb_spec (gs + g) n); [lia|].
      match goal with |- context [sy_run _ _ _ _ _ _ p ?e ?ss ?tt _] =>
        destruct (IH sid nxt (S g) av e (vals ++ [v KA (gs + g); v KB (gs + g); v KC (gs + g); v KD (gs + g)])%nat ss tt gs Hf den rk
                    (live ++ [true; true; true; true]) live') as (env' & s' & t' & den' & rk' & E & P1 & P2 & P3 & P4 & P5 & P6) end;
        cbn [ys_gates ys_avail ys_cons ys_y]; auto; try lia.
      { apply erel_app; [exact He|]. repeat (constructor; [cbn [gok]; lia|reflexivity|]). constructor. }
      { apply (Inv_H _ _ _ _ (henv env ++ Hf)); [|exact HI]. intros j. rewrite henv_app, !cnt_app. cbn [henv flat_map app cnt is_v]. lia. }
      unfold r. cbn [sem]. rewrite !Hval.
      exists env', s', t', den', rk'. split; [exact E|]. split; [exact P1|]. split; [exact P2|]. split; [exact P3|].
      split; [rewrite P4; lia|]. split; [exact P5|]. exact P6.
    - rewrite used_mul in *. cbn [sy_run own_cons] in *. rewrite Hg.
      destruct (Nat.eqb_spec (gs + g) n); [lia|].
      match goal with |- context [sy_run _ _ _ _ _ _ p ?e ?ss ?tt _] =>
        destruct (IH sid nxt (S g) av e (vals ++ [v KA (gs + g); v KB (gs + g); v KC (gs + g)])%nat ss tt gs Hf den rk
                    (live ++ [true; true; true]) live') as (env' & s' & t' & den' & rk' & E & P1 & P2 & P3 & P4 & P5 & P6) end;
        cbn [ys_gates ys_avail ys_cons ys_y]; auto; try lia.
      { apply erel_app; [exact He|]. repeat (constructor; [cbn [gok]; lia|reflexivity|]). constructor. }
      { apply (Inv_H _ _ _ _ (henv env ++ Hf)); [|exact HI]. intros j. rewrite henv_app, !cnt_app. cbn [henv flat_map app cnt is_v]. lia. }
      unfold r. cbn [sem]. rewrite !Hval.
      exists env', s', t', den', rk'. split; [exact E|]. split; [exact P1|]. split; [exact P2|]. split; [exact P3|].
      split; [rewrite P4; lia|]. split; [exact P5|]. exact P6.
    - cbn [sy_run own_cons] in *. unfold r. cbn [sem].
      destruct (ys_avail F s) as [w|] eqn:Ea.
      + destruct av as [xv|]; [|destruct w; contradiction].
        destruct w as [k|k|k|k|k]; cbn [avail_ok] in Hav; try contradiction. destruct Hav as [Hk Hxv].
        cbn [is_some] in *. rewrite used_alloc_half in *.
        match goal with |- context [sy_run _ _ _ _ _ _ p ?e ?ss ?tt _] =>
          destruct (IH sid nxt g None e (vals ++ [xv]) ss tt gs Hf den rk (live ++ [true]) live')
            as (env' & s' & t' & den' & rk' & E & P1 & P2 & P3 & P4 & P5 & P6) end;
          cbn [ys_gates ys_avail ys_cons ys_y avail_ok]; auto.
        { apply erel_app; [exact He|]. constructor; [exact Hk|exact Hxv|constructor]. }
        { apply (Inv_H _ _ _ _ (henv env ++ Hf)); [|exact HI]. intros j. rewrite henv_app, !cnt_app. cbn [henv flat_map app cnt is_v]. lia. }
        exists env', s', t', den', rk'. split; [exact E|]. auto 10.
      + destruct av as [xv|]; [contradiction|]. cbn [is_some] in *. rewrite used_alloc_full in *. rewrite Hg.
        destruct (Nat.eqb_spec (gs + g) n); [lia|].
        match goal with |- context [sy_run _ _ _ _ _ _ p ?e ?ss ?tt _] =>
          destruct (IH sid nxt (S g) (Some (v KD (gs + g)%nat)) e (vals ++ [v KB (gs + g)%nat]) ss tt gs Hf den rk (live ++ [true]) live')
            as (env' & s' & t' & den' & rk' & E & P1 & P2 & P3 & P4 & P5 & P6) end;
          cbn [ys_gates ys_avail ys_cons ys_y avail_ok is_some]; auto; try lia.
        { apply erel_app; [exact He|]. constructor; [cbn [gok]; lia|reflexivity|constructor]. }
        { split; [lia|reflexivity]. }
        { apply (Inv_H _ _ _ _ (henv env ++ Hf)); [|exact HI]. intros j. rewrite henv_app, !cnt_app. cbn [henv flat_map app cnt is_v]. lia. }
        rewrite !Hval. cbn [is_some] in P4.
        exists env', s', t', den', rk'. split; [exact E|]. split; [exact P1|]. split; [exact P2|]. split; [exact P3|].
        split; [rewrite P4; lia|]. split; [exact P5|]. exact P6.
    - cbn [sy_run own_cons] in *. unfold r. cbn [sem].
      destruct (lc_ok live lc) eqn:Hlc; [|discriminate].
      destruct (lc_gets_ok den env vals live lc He Hlc) as (ops & -> & Fo & Es).
      destruct (sy_add_ok F G v t (IB 0 :: henv env ++ Hf) [] den rk ops) as (t1 & i & den1 & rk1 & -> & HI1 & Dsame & Di & Ph).
      { apply (Inv_H _ _ _ _ (henv env ++ Hf)); [|exact HI]. reflexivity. }
      { eapply Forall_impl; [|exact Fo]. intros op. destruct op as [w c|c|w|w|ts]; cbn [op_ok]; auto.
        1-3: intros [Hin Hgk]; split; [|exact Hgk]; cbn [In] in *; rewrite in_app_iff; tauto.
        apply Forall_impl. intros tc [Hin Hgk]; split; [|exact Hgk]; cbn [In] in *; rewrite in_app_iff; tauto. }
      destruct (IH sid nxt g av (env ++ [Some (IV i)]) (vals ++ [lc_val val vals lc]) s t1 gs Hf den1 rk1 (live ++ [true]) live')
        as (env' & s' & t' & den' & rk' & E & P1 & P2 & P3 & P4 & P5 & P6); auto.
      { apply erel_app.
        - apply (erel_den den); [exact He|]. intros w Hw. apply Dsame. right. apply in_or_app. left. exact Hw.
        - constructor; [exact I| |constructor]. cbn [D]. rewrite Di, Es. reflexivity. }
      { apply (Inv_H _ _ _ _ (IV i :: IB 0 :: henv env ++ Hf)); [|exact HI1]. intros j. rewrite henv_app. cbn [cnt is_v]. rewrite !cnt_app.
        cbn [henv flat_map app cnt is_v]. lia. }
      exists env', s', t', den', rk'. split; [exact E|]. split; [exact P1|]. split; [exact P2|].
      split. { intros w Hw. rewrite P3 by exact Hw. apply Dsame. right. apply in_or_app. right. exact Hw. }
      split; [exact P4|]. split; [exact P5|]. rewrite P6, Ph. reflexivity.
    - cbn [sy_run own_cons] in *. unfold r. cbn [sem sm_env sm_own sm_subs].
      destruct (lc_ok live lc) eqn:Hlc; [|discriminate].
      destruct (Nat.leb_spec (NC - 1) (ys_cons F s)); [lia|].
      destruct (lc_gets_ok den env vals live lc He Hlc) as (ops & -> & Fo & Es).
      destruct (sy_enforce_ok F G v t (IB 0 :: henv env ++ Hf) [] den rk (ys_y F s) ops) as (t1 & -> & HI1 & Ph).
      { apply (Inv_H _ _ _ _ (henv env ++ Hf)); [|exact HI]. reflexivity. }
      { eapply Forall_impl; [|exact Fo]. intros op. destruct op as [w c|c|w|w|ts]; cbn [op_ok]; auto.
        1-3: intros [Hin Hgk]; split; [|exact Hgk]; cbn [In] in *; rewrite in_app_iff; tauto.
        apply Forall_impl. intros tc [Hin Hgk]; split; [|exact Hgk]; cbn [In] in *; rewrite in_app_iff; tauto. }
      match goal with |- context [sy_run _ _ _ _ _ _ p ?e ?ss ?tt _] =>
        destruct (IH sid nxt g av e vals ss tt gs Hf den rk live live')
          as (env' & s' & t' & den' & rk' & E & P1 & P2 & P3 & P4 & P5 & P6) end;
        cbn [ys_gates ys_avail ys_cons ys_y]; auto; try lia.
      { apply (Inv_H _ _ _ _ (IB 0 :: henv env ++ Hf)); [|exact HI1]. reflexivity. }
      cbn [ys_cons ys_y] in P5, P6.
      exists env', s', t', den', rk'. split; [exact E|]. split; [exact P1|]. split; [exact P2|]. split; [exact P3|].
      split; [exact P4|]. split; [rewrite P5; lia|]. cbn [osum]. rewrite P6, Ph, Es. unfold lc_val. rewrite Hone. ring.
    - cbn [sy_run own_cons] in *. unfold r. cbn [sem].
      destruct (ref_ok live w) eqn:Hr; [|discriminate].
      destruct (s_get_ok den env vals live w He Hr) as (h & -> & Gh & Dh & Hin).
      destruct (vt_inc_ok F G v t (IB 0 :: henv env ++ Hf) [] den rk h) as (t1 & -> & HI1 & Ph & _).
      { apply (Inv_H _ _ _ _ (henv env ++ Hf)); [|exact HI]. reflexivity. }
      { cbn [In] in *. rewrite in_app_iff. tauto. }
      destruct (IH sid nxt g av (env ++ [Some h]) (vals ++ [lookup (one_val val) vals w]) s t1 gs Hf den rk (live ++ [true]) live')
        as (env' & s' & t' & den' & rk' & E & P1 & P2 & P3 & P4 & P5 & P6); auto.
      { apply erel_app; [exact He|]. constructor; [exact Gh|exact Dh|constructor]. }
      { apply (Inv_H _ _ _ _ (h :: IB 0 :: henv env ++ Hf)); [|exact HI1]. intros j. rewrite henv_app. cbn [cnt is_v]. rewrite !cnt_app.
        cbn [henv flat_map app cnt is_v]. lia. }
      exists env', s', t', den', rk'. rewrite <- Ph. split; [exact E|]. auto 10.
    - cbn [sy_run own_cons] in *. unfold r. cbn [sem].
      destruct (nth i live false) eqn:Hi; [|discriminate].
      destruct (erel_nth den env vals live i one He Hi) as (h & Eh & Gh & Dh & Hin). rewrite Eh.
      destruct (erel_unset den env vals live i h He Eh) as [He1 Hcnt].
      destruct (vt_drop_ok F G v t h (henv (upd env i None) ++ Hf) [] den rk) as (t1 & -> & HI1 & Ph); [|exact Gh|].
      { apply (Inv_H _ _ _ _ (henv env ++ Hf)); [|exact HI]. intros j. cbn [cnt]. rewrite !cnt_app, Hcnt. lia. }
      destruct (IH sid nxt g av (upd env i None) vals s t1 gs Hf den rk (unset live i) live')
        as (env' & s' & t' & den' & rk' & E & P1 & P2 & P3 & P4 & P5 & P6); auto.
      exists env', s', t', den', rk'. rewrite <- Ph. split; [exact E|]. auto 10.
    - cbn [sy_run own_cons] in *. cbn [sub_sizes] in Hsl. destruct (slice_cons _ _ _ _ Hsl) as [H0 Hsl1].
      destruct (slice_app _ _ _ _ Hsl1) as [Hslb Hslk].
      replace (S (nxt - 1)) with nxt by lia.
      unfold plan at 1. rewrite floor_plan_nth, H0, used_scope. cbn [gate_start constraint_start num_gates num_constraints].
      rewrite used_scope in H0. destruct (slice_bounds _ _ _ H0) as [Bg Bc]. cbn [fst snd] in Bg, Bc. fold G in Bg.
      destruct (take_ok live ins) as [live1|] eqn:Ht; [|discriminate].
      destruct (owned body (repeat true (length ins))) as [cl|] eqn:Hob; [|discriminate].
      destruct (take_ok cl outs) as [cl1|] eqn:Hto; [|discriminate].
      destruct (s_take_ok den ins env vals live live1 He Ht) as (env1 & input & -> & He1 & Ein & Gin & Lin & Cin).
      unfold r. cbn [sem sm_env sm_own sm_subs].
      set (rb := sem val body nxt (S nxt) 0 None (map (lookup (one_val val) vals) ins)) in *.
      assert (Lb : length (sm_subs rb) = length (sub_sizes body)) by apply sem_subs_length.
      set (rk0 := sem val p sid (S nxt + length (sm_subs rb)) g av
                   (vals ++ map (lookup (one_val val) (sm_env rb)) outs)) in *.
      destruct (sem_lens F val body nxt (S nxt) 0 None (map (lookup (one_val val) vals) ins)) as [Lo _].
      fold rb in Lo.
      set (init := mk_yscope F None _ _ _).
      destruct (IHb nxt (S nxt) 0%nat None (map Some input) (map (DD den) input) init t (gate_off szs nxt)
                  (henv env1 ++ Hf) den rk (repeat true (length ins)) cl)
        as (cenv & cs & t1 & den1 & rk1 & Eb & Q1 & Q2 & Q3 & Q4 & Q5 & Q6); auto; try lia.
      { rewrite <- Lin. apply erel_some. exact Gin. }
      { unfold init. cbn. lia. }
      { cbn [is_some]. lia. }
      { unfold init. cbn [ys_cons]. lia. }
      { rewrite henv_some. apply (Inv_H _ _ _ _ (henv env ++ Hf)); [|exact HI]. intros j. rewrite !cnt_app, Cin. lia. }
      rewrite Ein in Q1, Q6.
      change (sem val body nxt (S nxt) 0 None (map (lookup one vals) ins)) with rb in Q1, Q6.
      replace (S nxt - 1)%nat with nxt in Eb by lia. rewrite Eb.
      unfold init in Q5, Q6. cbn [ys_cons ys_y is_some] in Q4, Q5, Q6.
      rewrite Q4, Q5, Nat.add_0_r, !Nat.eqb_refl. cbn [andb].
      destruct (s_take_ok den1 outs cenv (sm_env rb) cl cl1 Q1 Hto) as (cenv1 & output & -> & Hc1 & Eout & Gout & Lout & Cout).
      destruct (s_drop_all_ok den1 rk1 cenv1 t1 (output ++ henv env1 ++ Hf)) as (t2 & -> & HI2 & Ph2).
      { apply (Inv_H _ _ _ _ (henv cenv ++ henv env1 ++ Hf)); [|exact Q2]. intros j. rewrite !cnt_app, Cout. lia. }
      { eapply erel_gok. exact Hc1. }
      destruct (IHk sid (S nxt + length (sub_sizes body))%nat g av (env1 ++ map Some output)
                  (vals ++ map (lookup (one_val val) (sm_env rb)) outs) s t2 gs Hf den1 rk1 (live1 ++ repeat true (length outs)) live')
        as (env' & s' & t' & den' & rk' & E & P1 & P2 & P3 & P4 & P5 & P6); auto; try lia.
      { apply erel_app.
        - apply (erel_den den); [exact He1|]. intros w Hw. apply Q3. apply in_or_app. left. exact Hw.
        - rewrite <- Lout. change (one_val val) with one. rewrite <- Eout. apply erel_some. exact Gout. }
      { apply (Inv_H _ _ _ _ (output ++ henv env1 ++ Hf)); [|exact HI2]. intros j. rewrite henv_app, henv_some, !cnt_app. lia. }
      replace (S nxt + length (sub_sizes body) - 1)%nat with (nxt + length (sub_sizes body))%nat in E by lia.
      rewrite <- Lb in P1, P6. fold rk0 in P1, P6.
      exists env', s', t', den', rk'. split.
      { rewrite E. do 2 f_equal. cbn [sub_sizes length]. rewrite app_length. lia. }
      split; [exact P1|]. split; [exact P2|]. split.
      { intros w Hw. rewrite P3 by exact Hw. apply Q3. apply in_or_app. right. exact Hw. }
      split; [exact P4|]. split; [exact P5|].
      rewrite P6, Ph2, Q6. cbn [sub_sum]. rewrite (sub_sum_app F n NC y szs Hgates Hcons).
      replace (nxt + S (length (sm_subs rb)))%nat with (S nxt + length (sm_subs rb))%nat by lia.
      replace (osum (if own_cons body =? 0 then 0 else y ^ (cons_off szs nxt + own_cons body - 1)) (sm_own rb))
        with (y ^ cons_off szs nxt * peval (rev (sm_own rb)) y); [ring|].
      destruct (Nat.eqb_spec (own_cons body) 0) as [Hz|Hz].
      + rewrite osum_0. destruct (sm_own rb); [simpl; ring|simpl in Lo; lia].
      + rewrite <- Lo, osum_peval. reflexivity.
  Qed.
End SyRunP.

Section SyTop.
  Variable F : Field.
  Add Field FFy4 : (f_theory F).
  Open Scope f_scope.

  Lemma Inv_init G (v : kind -> nat -> F) :
    Inv F G v (mk_vtable [] [] (repeat 0 G) (repeat 0 G) (repeat 0 G) (repeat 0 G)) [] [] (fun _ => 0) (fun _ => 0%nat).
  Proof.
    assert (W : forall i, wat F (mk_vtable [] [] (repeat 0 G) (repeat 0 G) (repeat 0 G) (repeat 0 G)) i = dead F)
      by (intros [|i]; reflexivity).
    constructor; cbn [vt_wires vt_free vt_a vt_b vt_c vt_d]; intros; rewrite ?W in *; cbn in *; auto; try lia; try tauto.
    - constructor.
    - rewrite !repeat_length. auto.
  Qed.
  Lemma buf_zero G (v : kind -> nat -> F) k : buf F G v (repeat 0 G) k = 0.
  Proof. unfold buf. apply fsum_zero. intros i _. rewrite nth_repeat. ring. Qed.

  Lemma list_sum_gates szs : list_sum (map num_gates (floor_plan szs)) = list_sum (map fst szs).
  Proof.
    unfold floor_plan. generalize 0%nat at 1 as a. generalize 0%nat as b. induction szs as [|[g c] r IH]; intros b a; [reflexivity|].
    cbn [floor_go map num_gates fst]. rewrite !list_sum_cons, IH. reflexivity.
  Qed.
  Lemma orch_gates (body : prog F) outs : (0 < used false (orchestrate body outs))%nat.
  Proof. unfold orchestrate. rewrite used_gate. lia. Qed.
  Lemma own_cons_app (p q : prog F) : own_cons (prog_app p q) = (own_cons p + own_cons q)%nat.
  Proof. induction p; cbn [prog_app own_cons]; auto. rewrite IHp. lia. Qed.
  Lemma orch_cons (body : prog F) outs : (0 < own_cons (orchestrate body outs))%nat.
  Proof.
    unfold orchestrate. cbn [own_cons]. rewrite own_cons_app.
    assert (0 < own_cons (enforce_outputs (F := F) outs))%nat by (induction outs; cbn; lia). lia.
  Qed.

  (** the buffers hold, for all gate values at once, the weighted constraint sum *)
  Lemma sy_bufs (n : nat) (body : prog F) (outs : list wref) (y : F) :
    let p := orchestrate body outs in
    let G := list_sum (map fst (sizes p)) in
    (G <= n)%nat -> (list_sum (map snd (sizes p)) < 4 * n)%nat ->
    y <> 0 -> owned p [] <> None ->
    exists a b c d, sy_eval n (4 * n) body outs y (floor_plan (sizes p)) = wiring_build (4 * n) n a b c d /\
      length a = G /\ length b = G /\ length c = G /\ length d = G /\
      forall v, buf F G v a KA + buf F G v b KB + buf F G v c KC + buf F G v d KD
                = peval (y_coeffs (placed (sizes p) v) p) y.
  Proof.
    intros p G Hg Hc Hy Ho. unfold sy_eval. rewrite (proj2 (feqb_false F y 0) Hy). fold p.
    assert (Hsz : sizes p = (used false p, own_cons p) :: sub_sizes p) by (unfold sizes; rewrite used_scope; reflexivity).
    destruct (slice_bounds (sizes p) 0 (used false p, own_cons p)) as [B1 B2]; [rewrite Hsz; reflexivity|].
    cbn [fst snd] in B1, B2. change (gate_off (sizes p) 0) with 0%nat in B1. change (cons_off (sizes p) 0) with 0%nat in B2.
    assert (Hp := orch_gates body outs). fold p in Hp.
    assert (Hcp := orch_cons body outs). fold p in Hcp. fold G in B1.
    assert (H0 : nth_error (sizes p) 0 = Some (used false p, own_cons p)) by (rewrite Hsz; reflexivity).
    assert (HL : length (sizes p) = S (length (sub_sizes p))) by (rewrite Hsz; reflexivity).
    rewrite list_sum_gates, floor_plan_nth, floor_plan_length, H0, HL. fold G. cbn [num_constraints num_gates].
    destruct (Nat.eqb_spec (own_cons p) 0); [lia|].
    destruct (owned p []) as [live'|] eqn:Eo; [|congruence].
    assert (Run : forall v, exists env' s' t' t'' ,
      sy_run F n (4 * n) y (finv y) (floor_plan (sizes p)) p []
        (mk_yscope F None (y ^ (own_cons p - 1)) 0 0)
        (mk_vtable [] [] (repeat 0 G) (repeat 0 G) (repeat 0 G) (repeat 0 G)) 0 = Some (env', s', t', length (sub_sizes p)) /\
      s_drop_all F t' env' = Some t'' /\ ys_gates F s' = used false p /\ ys_cons F s' = own_cons p /\
      length (vt_free t'') = length (vt_wires t'') /\
      length (vt_a t'') = G /\ length (vt_b t'') = G /\ length (vt_c t'') = G /\ length (vt_d t'') = G /\
      bufs F G v t'' = peval (y_coeffs (placed (sizes p) v) p) y).
    { intros v.
      destruct (sy_run_ok F n (4 * n) y Hy (sizes p) Hg ltac:(fold G; lia) ltac:(lia) v p 0 1 0 None [] []
        (mk_yscope F None (y ^ (own_cons p - 1)) 0 0)
        (mk_vtable [] [] (repeat 0 G) (repeat 0 G) (repeat 0 G) (repeat 0 G)) 0 [] (fun _ => 0) (fun _ => 0%nat) [] live')
        as (env' & s' & t' & den' & rk' & E & P1 & P2 & P3 & P4 & P5 & P6); auto.
      { constructor. }
      { exact I. }
      { cbn [ys_cons]. lia. }
      { apply slice_sizes. }
      { apply Inv_init. }
      destruct (s_drop_all_ok F (sizes p) v den' rk' env' t' [] P2) as (t'' & Ed & HI & Ph).
      { eapply erel_gok. exact P1. }
      destruct (no_leak F _ v t'' den' rk' HI) as (_ & Lf & Pb).
      exists env', s', t', t''. cbn [Nat.sub] in E. cbn [Nat.add is_some ys_cons ys_y] in *.
      destruct (i_len _ _ _ _ _ _ _ _ HI) as (La & Lb & Lc & Ld).
      repeat (split; [assumption|]).
      unfold G. rewrite <- Pb, Ph, P6. unfold phi, bufs. cbn [vt_a vt_b vt_c vt_d vt_wires]. fold G. rewrite !buf_zero.
      unfold vsum. cbn [length fsum].
      unfold y_coeffs, cons_vals. cbn [flat_map]. rewrite peval_app, rev_length.
      destruct (sem_lens F (placed (sizes p) v) p 0 1 0 None []) as [L1 _].
      rewrite (sub_sum_flat F y (sizes p)).
      2:{ right. intros j o Hj. eapply subs_sizes_rel; [apply slice_sizes|exact Hj]. }
      replace (cons_off (sizes p) 1) with (own_cons p)
        by (rewrite (cons_off_S _ 0 (used false p, own_cons p)) by (rewrite Hsz; reflexivity); reflexivity).
      pose proof (osum_peval F n (4 * n) y Hy (sizes p) Hg ltac:(fold G; lia) ltac:(lia) (sm_own (sem (placed (sizes p) v) p 0 1 0 None [])) 0) as Q.
      rewrite L1 in Q |- *. cbn [Nat.add fpow] in Q. rewrite Q. ring. }
    destruct (Run (fun _ _ => 0)) as (env' & s' & t' & t'' & E1 & E2 & E3 & E4 & E5 & E6 & E7 & E8 & E9 & _).
    rewrite E1, E2, E3, E4, E5, !Nat.eqb_refl. cbn [andb].
    exists (vt_a t''), (vt_b t''), (vt_c t''), (vt_d t''). repeat (split; [first [assumption|reflexivity]|]).
    intros v. destruct (Run v) as (env1 & s1 & t1 & t2 & F1 & F2 & _ & _ & _ & _ & _ & _ & _ & F10).
    rewrite F1 in E1. inversion E1; subst. rewrite F2 in E2. inversion E2; subst. exact F10.
  Qed.

  (** evaluation of a wiring polynomial by gates *)
  Lemma wiring_eval (n : nat) (a b c d : list F) q x :
    (length a <= n)%nat -> (length b <= n)%nat -> (length c <= n)%nat -> (length d <= n)%nat ->
    wiring_build (4 * n) n a b c d = Some q ->
    wf 0 (4 * n) q /\
    p_eval (4 * n) q x = fsum n (fun i => nth i a 0 * mono n x KA i + nth i b 0 * mono n x KB i
                                        + nth i c 0 * mono n x KC i + nth i d 0 * mono n x KD i).
  Proof.
    intros La Lb Lc Ld E. destruct (wiring_build_ok F n a b c d La Lb Lc Ld) as (q' & E' & Hwf & Hco).
    rewrite E in E'. inversion E'; subst q'. split; [exact Hwf|].
    rewrite (eval_ok F _ q x Hwf), sum_by_gate. apply fsum_ext. intros i Hi. rewrite !Hco.
    rewrite trace_coeff_a, trace_coeff_b, trace_coeff_c, trace_coeff_d by exact Hi. unfold mono. ring.
  Qed.
  Lemma fsum_pad G n (f : nat -> F) : (G <= n)%nat -> (forall i, (G <= i)%nat -> f i = 0) -> fsum n f = fsum G f.
  Proof.
    intros H Hz. induction n as [|n IH]; [replace G with 0%nat by lia; reflexivity|].
    destruct (Nat.eq_dec G (S n)) as [->|]; [reflexivity|]. cbn [fsum]. rewrite IH by lia. rewrite Hz by lia. ring.
  Qed.

  Lemma peval_at_0 (l : list F) : peval l 0 = nth 0 l 0.
  Proof. destruct l; cbn [peval nth]; ring. Qed.
  Lemma s_spec_y0 n (body : prog F) outs x : s_spec n (orchestrate body outs) x 0 = mono n x KB 0.
  Proof. unfold s_spec. rewrite peval_at_0, y_coeffs_0. reflexivity. Qed.

  Lemma sy_ok (n : nat) (body : prog F) (outs : list wref) (y : F) :
    let p := orchestrate body outs in
    (list_sum (map fst (sizes p)) <= n)%nat -> (list_sum (map snd (sizes p)) < 4 * n)%nat ->
    owned p [] <> None ->
    exists q, sy_eval n (4 * n) body outs y (floor_plan (sizes p)) = Some q /\ wf 0 (4 * n) q /\
      forall x, p_eval (4 * n) q x = s_spec n p x y.
  Proof.
    intros p Hg Hc Ho. destruct (feqb y 0) eqn:Ey.
    - apply feqb_true in Ey. subst y. unfold sy_eval. rewrite feqb_refl.
      assert (Hn : (1 <= n)%nat).
      { assert (Hsz : sizes p = (used false p, own_cons p) :: sub_sizes p) by (unfold sizes; rewrite used_scope; reflexivity).
        assert (Hp := orch_gates body outs). fold p in Hp. rewrite Hsz in Hg. cbn [map fst] in Hg. rewrite list_sum_cons in Hg. lia. }
      destruct (wiring_build_ok F n [] [1] [] []) as (q & E & Hwf & _); try (cbn; lia).
      exists q. split; [exact E|]. split; [exact Hwf|]. intros x.
      unfold p. rewrite s_spec_y0. destruct (wiring_eval n [] [1] [] [] q x) as [_ Q]; try (cbn; lia); auto.
      rewrite Q. rewrite (fsum_pad 1 n); [|lia|].
      + cbn [fsum nth]. ring.
      + intros i Hi. rewrite (nth_overflow [1]) by (cbn; lia). destruct i; cbn [nth]; ring.
    - apply feqb_false in Ey. destruct (sy_bufs n body outs y Hg Hc Ey Ho) as (a & b & c & d & E & La & Lb & Lc & Ld & Hv).
      fold p in E, La, Lb, Lc, Ld, Hv.
      destruct (wiring_build_ok F n a b c d) as (q & E' & Hwf & _); try lia.
      exists q. split; [congruence|]. split; [exact Hwf|]. intros x.
      destruct (wiring_eval n a b c d q x) as [_ Q]; try lia; auto. rewrite Q.
      unfold s_spec. rewrite <- Hv. unfold buf. rewrite <- !fsum_add.
      rewrite (fsum_pad (list_sum (map fst (sizes p))) n); [reflexivity|exact Hg|].
      intros i Hi. rewrite !nth_overflow by lia. ring.
  Qed.
End SyTop.
