(** Proofs about the sxy and sx evaluators. *)
From Coq Require Import List Arith Lia Bool Ring Field.
From Verif Require Import FieldDef ArithModel ArithSpec ArithProofs FFTModel FFTProofs SparseModel SparseSpec SparseProofs CircModel CircSpec CircProofs.
Import ListNotations.

(** the sizes of the routines below a scope sit at [nxt] in the global list *)
Definition slice_at (szs : list (nat * nat)) (nxt : nat) (subs : list (nat * nat)) : Prop :=
  forall k sz, nth_error subs k = Some sz -> nth_error szs (nxt + k) = Some sz.

Lemma slice_cons szs nxt s r : slice_at szs nxt (s :: r) ->
  nth_error szs nxt = Some s /\ slice_at szs (S nxt) r.
Proof.
  intros H. split.
  - specialize (H 0 s eq_refl). rewrite Nat.add_0_r in H. exact H.
  - intros k sz Hk. specialize (H (S k) sz Hk). rewrite <- Nat.add_succ_comm in H. exact H.
Qed.
Lemma slice_app szs nxt l r : slice_at szs nxt (l ++ r) ->
  slice_at szs nxt l /\ slice_at szs (nxt + length l) r.
Proof.
  intros H. split; intros k sz Hk.
  - apply H. rewrite nth_error_app1; [exact Hk|]. apply nth_error_Some. congruence.
  - rewrite <- Nat.add_assoc. apply H. rewrite nth_error_app2 by lia.
    rewrite Nat.add_comm, Nat.add_sub. exact Hk.
Qed.
Lemma slice_bounds szs nxt sz : nth_error szs nxt = Some sz ->
  gate_off szs nxt + fst sz <= list_sum (map fst szs) /\
  cons_off szs nxt + snd sz <= list_sum (map snd szs).
Proof.
  intros H. rewrite <- (gate_off_S _ _ _ H), <- (cons_off_S _ _ _ H).
  split; [apply gate_off_all|apply cons_off_all].
Qed.
Lemma slice_off szs : forall subs nxt, slice_at szs nxt subs ->
  cons_off szs (nxt + length subs) = cons_off szs nxt + list_sum (map snd subs) /\
  gate_off szs (nxt + length subs) = gate_off szs nxt + list_sum (map fst subs).
Proof.
  induction subs as [|s r IH]; intros nxt H; [rewrite Nat.add_0_r; cbn; lia|].
  destruct (slice_cons _ _ _ _ H) as [H0 Hr]. specialize (IH _ Hr). cbn [length map].
  rewrite <- Nat.add_succ_comm, !list_sum_cons.
  rewrite (cons_off_S _ _ _ H0), (gate_off_S _ _ _ H0) in IH. lia.
Qed.

Section Mono.
  Variable F : Field.
  Add Field FFc : (f_theory F).
  Open Scope f_scope.
  Variables (n : nat) (x : F).
  Hypothesis Hx : x <> 0.

  Lemma base_a_mono i : (i < n)%nat -> sqr (x ^ n) * finv x * finv x ^ i = mono n x KA i.
  Proof.
    intros H. unfold sqr, mono. rewrite fpow_sq.
    transitivity (x ^ (2 * n) * finv x ^ (S i)); [simpl; ring|].
    rewrite fpow_sub by (auto; lia). f_equal. lia.
  Qed.
  Lemma base_b_mono i : sqr (x ^ n) * x ^ i = mono n x KB i.
  Proof. unfold sqr, mono. rewrite fpow_sq, fpow_add. reflexivity. Qed.
  Lemma base_c_mono i : (i < n)%nat -> sqr (sqr (x ^ n)) * finv x * finv x ^ i = mono n x KC i.
  Proof.
    intros H. unfold sqr, mono. rewrite !fpow_sq. replace (2 * (2 * n))%nat with (4 * n)%nat by lia.
    transitivity (x ^ (4 * n) * finv x ^ (S i)); [simpl; ring|].
    rewrite fpow_sub by (auto; lia). f_equal. lia.
  Qed.
  Lemma b_to_d_mono i : sqr (x ^ n) * x ^ i * sqr (finv x ^ n) = mono n x KD i.
  Proof.
    unfold mono, sqr.
    transitivity ((finv x ^ n * x ^ n) * (finv x ^ n * x ^ n) * x ^ i); [ring|].
    rewrite fpow_inv_mul by exact Hx. ring.
  Qed.
  Lemma one_mono : sqr (x ^ n) = mono n x KB 0.
  Proof. rewrite <- base_b_mono. simpl. ring. Qed.
End Mono.

Section SxyP.
  Variable F : Field.
  Add Field FFc2 : (f_theory F).
  Open Scope f_scope.
  Variables (n NC : nat) (x y : F).
  Hypothesis Hx : x <> 0.
  Variable szs : list (nat * nat).
  Hypothesis Hgates : (list_sum (map fst szs) <= n)%nat.
  Hypothesis Hcons : (list_sum (map snd szs) <= NC - 1)%nat.

  Let xinv := finv x.
  Let one := sqr (x ^ n).
  Let ba := sqr (x ^ n) * finv x.
  Let bb := sqr (x ^ n).
  Let bc := sqr (sqr (x ^ n)) * finv x.
  Let b2d := sqr (finv x ^ n).
  Let plan := floor_plan szs.
  Let val := placed szs (mono n x).

  Definition scope_inv (gs g : nat) (av : option F) (s : xscope F) : Prop :=
    xs_a F s = ba * xinv ^ (gs + g) /\ xs_b F s = bb * x ^ (gs + g) /\
    xs_c F s = bc * xinv ^ (gs + g) /\ xs_gates F s = (gs + g)%nat /\
    option_map (deref F one) (xs_avail F s) = av.

  (** contributions of the routines numbered from k *)
  Fixpoint sub_sum (k : nat) (subs : list (list F)) : F :=
    match subs with
    | [] => 0
    | o :: r => y ^ (cons_off szs k) * peval (rev o) y + sub_sum (S k) r
    end.
  Lemma sub_sum_app : forall l k r, sub_sum k (l ++ r) = sub_sum k l + sub_sum (k + length l) r.
  Proof.
    induction l as [|o l IH]; intros k r; simpl; [rewrite Nat.add_0_r; ring|].
    rewrite IH. replace (S k + length l)%nat with (k + S (length l))%nat by lia. ring.
  Qed.
  Lemma peval_rev_cons (v : F) l : peval (rev (v :: l)) y = peval (rev l) y + y ^ (length l) * v.
  Proof. simpl. rewrite peval_app, rev_length. simpl. ring. Qed.

  Lemma advance_ok gs g av s : scope_inv gs g av s -> (gs + g < n)%nat ->
    exists s', xy_advance F n x xinv s
      = Some (s', (mono n x KA (gs + g), mono n x KB (gs + g), mono n x KC (gs + g))) /\
      scope_inv gs (S g) av s' /\ xs_avail F s' = xs_avail F s /\
      xs_cons F s' = xs_cons F s /\ xs_result F s' = xs_result F s /\ xs_sum F s' = xs_sum F s.
  Proof.
    intros (Ha & Hb & Hc & Hg & Hv) H. unfold xy_advance. rewrite Hg.
    destruct (Nat.eqb_spec (gs + g) n); [lia|]. eexists. split; [|].
    - f_equal. f_equal. rewrite Ha, Hb, Hc. unfold ba, bb, bc, xinv.
      rewrite base_a_mono, base_b_mono, base_c_mono by auto. reflexivity.
    - cbn. repeat split; auto; cbn; rewrite ?Nat.add_succ_r, ?Ha, ?Hb, ?Hc; cbn [fpow];
        try ring; rewrite ?Hg; reflexivity.
  Qed.
  Lemma b2d_ok i : mono n x KB i * b2d = mono n x KD i.
  Proof. rewrite <- base_b_mono. unfold b2d. apply b_to_d_mono. exact Hx. Qed.

  Local Notation run := (xy_run F n NC x xinv y one ba bb bc b2d plan).
  Local Opaque used.

  Lemma xy_run_ok : forall p sid nxt g av env s gs,
    gate_off szs sid = gs -> scope_inv gs g av s ->
    (gs + g + used (is_some av) p <= n)%nat ->
    (xs_cons F s + own_cons p <= NC - 1)%nat ->
    slice_at szs nxt (sub_sizes p) -> (1 <= nxt)%nat ->
    exists env' s',
      run p env s (nxt - 1) = Some (env', s', nxt - 1 + length (sub_sizes p))%nat /\
      let r := sem val p sid nxt g av (map (deref F one) env) in
      map (deref F one) env' = sm_env r /\
      xs_gates F s' = (gs + g + used (is_some av) p)%nat /\
      xs_cons F s' = (xs_cons F s + own_cons p)%nat /\
      xs_result F s' = xs_result F s * y ^ (own_cons p) + peval (rev (sm_own r)) y /\
      xs_sum F s' = xs_sum F s + sub_sum nxt (sm_subs r).
  Proof.
    assert (Hone : one_val val = one).
    { unfold one_val, val, placed, one. rewrite one_mono. reflexivity. }
    induction p as [|a b c d p IH|a b c p IH|v p IH|lc p IH|lc p IH|w p IH|i p IH|kn ins body IHb outs p IHk];
      intros sid nxt g av env s gs Hgs Hs Hb Hc Hsl Hn;
      assert (Hval : forall kd, val sid kd g = mono n x kd (gs + g)) by (intros kd; unfold val, placed; rewrite Hgs; reflexivity).
    - exists env, s. cbn [xy_run sub_sizes length own_cons]. rewrite Nat.add_0_r. split; [reflexivity|].
      cbn [sem sm_env sm_own sm_subs rev peval sub_sum]. rewrite used_end, !Nat.add_0_r.
      destruct Hs as (_ & _ & _ & Hg & _). simpl. repeat split; auto; ring.
    - rewrite used_gate in Hb. destruct (advance_ok gs g av s Hs) as (s1 & E1 & Hs1 & _ & C1 & R1 & S1); [lia|].
      cbn [xy_run]. rewrite E1. rewrite b2d_ok.
      match goal with |- context [xy_run _ _ _ _ _ _ _ _ _ _ _ _ p ?e ?ss _] =>
        destruct (IH sid nxt (S g) av e ss gs) as (env' & s' & E & P) end; auto; try lia.
      { cbn [own_cons] in Hc. lia. }
      exists env', s'. split; [exact E|].
      rewrite map_app in P. cbn [map deref] in P.
      cbn [sem]. rewrite !Hval. rewrite used_gate.
      cbn zeta in P |- *. rewrite C1, R1, S1 in P.
      destruct P as (P1 & P2 & P3 & P4 & P5). repeat split; auto. rewrite P2. lia.
    - rewrite used_mul in Hb. destruct (advance_ok gs g av s Hs) as (s1 & E1 & Hs1 & _ & C1 & R1 & S1); [lia|].
      cbn [xy_run]. rewrite E1.
      match goal with |- context [xy_run _ _ _ _ _ _ _ _ _ _ _ _ p ?e ?ss _] =>
        destruct (IH sid nxt (S g) av e ss gs) as (env' & s' & E & P) end; auto; try lia.
      { cbn [own_cons] in Hc. lia. }
      exists env', s'. split; [exact E|].
      rewrite map_app in P. cbn [map deref] in P.
      cbn [sem]. rewrite !Hval. rewrite used_mul.
      cbn zeta in P |- *. rewrite C1, R1, S1 in P.
      destruct P as (P1 & P2 & P3 & P4 & P5). repeat split; auto. rewrite P2. lia.
    - cbn [xy_run sem]. destruct Hs as (Ha & Hb' & Hc' & Hg & Hv).
      destruct (xs_avail F s) as [w|] eqn:Ea; simpl in Hv; subst av.
      + cbn [is_some] in *. rewrite used_alloc_half in *.
        destruct (IH sid nxt g None (env ++ [w]) (xs_set_avail F s None) gs) as (env' & s' & E & P); auto.
        { repeat split; auto. }
        exists env', s'. split; [exact E|]. rewrite map_app in P. cbn [map] in P. exact P.
      + cbn [is_some] in *. rewrite used_alloc_full in *.
        destruct (advance_ok gs g None s) as (s1 & E1 & Hs1 & V1 & C1 & R1 & S1); [|lia|].
        { repeat split; auto. rewrite Ea. reflexivity. }
        rewrite E1, b2d_ok.
        match goal with |- context [xy_run _ _ _ _ _ _ _ _ _ _ _ _ p ?e ?ss _] =>
          destruct (IH sid nxt (S g) (Some (mono n x KD (gs + g))) e ss gs) as (env' & s' & E & P) end; auto; try lia.
        { destruct Hs1 as (A1 & A2 & A3 & A4 & A5). repeat split; auto. }
        { cbn [is_some]. lia. }
        { cbn. cbn [own_cons] in Hc. rewrite C1. lia. }
        exists env', s'. split; [exact E|].
        rewrite map_app in P. cbn [map deref] in P.
        rewrite !Hval.
        cbn zeta in P |- *. cbn [xs_set_avail xs_cons xs_result xs_sum is_some] in P.
        rewrite C1, R1, S1 in P.
        destruct P as (P1 & P2 & P3 & P4 & P5). repeat split; auto. rewrite P2. lia.
    - cbn [xy_run sem].
      destruct (IH sid nxt g av (env ++ [WEValue (we_lc F one env lc)]) s gs) as (env' & s' & E & P); auto.
      exists env', s'. split; [exact E|]. rewrite map_app in P. cbn [map deref] in P.
      rewrite we_lc_ok in P. unfold lc_val. rewrite Hone. exact P.
    - cbn [xy_run sem]. cbn [own_cons] in Hc.
      destruct (Nat.leb_spec (NC - 1) (xs_cons F s)); [lia|].
      match goal with |- context [xy_run _ _ _ _ _ _ _ _ _ _ _ _ p ?e ?ss _] =>
        destruct (IH sid nxt g av e ss gs) as (env' & s' & E & P) end; auto.
      { cbn. lia. }
      exists env', s'. split; [exact E|]. cbn [sm_env sm_own sm_subs]. cbn zeta in P |- *.
      cbn [xs_cons xs_result xs_sum] in P. destruct P as (P1 & P2 & P3 & P4 & P5).
      rewrite peval_rev_cons. destruct (sem_lens F val p sid nxt g av (map (deref F one) env)) as [L _].
      rewrite L. unfold lc_val. rewrite Hone. cbn [own_cons].
      repeat split; auto; try lia. rewrite P4, we_lc_ok. cbn [fpow]. ring.
    - cbn [xy_run sem].
      destruct (IH sid nxt g av (env ++ [lookup WEOne env w]) s gs) as (env' & s' & E & P); auto.
      exists env', s'. split; [exact E|]. rewrite map_app in P. cbn [map] in P.
      rewrite deref_lookup in P. rewrite Hone. exact P.
    - cbn [xy_run sem]. apply (IH sid nxt g av env s gs); auto.
    - cbn [xy_run sem]. cbn [sub_sizes] in Hsl. destruct (slice_cons _ _ _ _ Hsl) as [H0 Hsl1].
      destruct (slice_app _ _ _ _ Hsl1) as [Hslb Hslk].
      replace (S (nxt - 1)) with nxt by lia.
      unfold plan at 1. rewrite floor_plan_nth, H0, used_scope. cbn [gate_start constraint_start num_gates num_constraints].
      rewrite used_scope in H0. destruct (slice_bounds _ _ _ H0) as [Bg Bc]. cbn [fst snd] in Bg, Bc.
      set (init := mk_xscope F None _ _ _ _ _ _ _).
      destruct (IHb nxt (S nxt) 0%nat None (map (lookup WEOne env) ins) init (gate_off szs nxt))
        as (cenv & cs & Eb & Pb); auto; try lia.
      { unfold init. repeat split; cbn; rewrite ?Nat.add_0_r; reflexivity. }
      { cbn [is_some]. lia. }
      { cbn. lia. }
      replace (S nxt - 1)%nat with nxt in Eb by lia. rewrite Eb.
      cbn zeta in Pb. unfold init in Pb. cbn [xs_cons xs_result xs_sum is_some] in Pb.
      rewrite map_deref_lookup in Pb.
      rewrite Hone.
      set (rb := sem val body nxt (S nxt) 0 None (map (lookup one (map (deref F one) env)) ins)) in *.
      destruct Pb as (Q1 & Q2 & Q3 & Q4 & Q5).
      rewrite Q2, Q3, Nat.add_0_r, !Nat.eqb_refl. cbn [andb].
      assert (Lb : length (sm_subs rb) = length (sub_sizes body)) by apply sem_subs_length.
      match goal with |- context [xy_run _ _ _ _ _ _ _ _ _ _ _ _ p ?e ?ss _] =>
        destruct (IHk sid (S nxt + length (sub_sizes body)) g av e ss gs)%nat as (env' & s' & E & P) end; auto; try lia.
      replace (S nxt + length (sub_sizes body) - 1)%nat with (nxt + length (sub_sizes body))%nat in E by lia.
      exists env', s'. split.
      { rewrite E. do 2 f_equal. cbn [sub_sizes length]. rewrite app_length. lia. }
      rewrite map_app, map_deref_lookup, Q1, <- Lb in P. cbn zeta in P |- *.
      cbn [sm_env sm_own sm_subs]. cbn [xs_cons xs_result xs_sum] in P. destruct P as (P1 & P2 & P3 & P4 & P5).
      rewrite used_routine. repeat split; auto.
      rewrite P5, Q4, Q5. cbn [sub_sum]. rewrite sub_sum_app. 
      replace (nxt + S (length (sm_subs rb)))%nat with (S nxt + length (sm_subs rb))%nat by lia. ring.
  Qed.

  Lemma sub_sum_flat : forall subs k, slice_at szs k (map (fun o : list F => (0%nat, length o)) subs) \/
    (forall j o, nth_error subs j = Some o -> exists g, nth_error szs (k + j) = Some (g, length o)) ->
    sub_sum k subs = y ^ (cons_off szs k) * peval (flat_map (@rev F) subs) y.
  Proof.
    induction subs as [|o r IH]; intros k H.
    - simpl. ring.
    - assert (H0 : exists g, nth_error szs k = Some (g, length o)).
      { destruct H as [H|H].
        - exists 0%nat. specialize (H 0%nat _ eq_refl). rewrite Nat.add_0_r in H. exact H.
        - destruct (H 0%nat o eq_refl) as [g Hg]. rewrite Nat.add_0_r in Hg. eauto. }
      destruct H0 as [g0 H0]. cbn [sub_sum flat_map].
      rewrite (IH (S k)).
      + rewrite peval_app, rev_length, (cons_off_S _ _ _ H0), fpow_add. cbn [snd]. ring.
      + right. intros j o' Hj. destruct H as [H|H].
        * exists 0%nat. specialize (H (S j) (0%nat, length o')). simpl in H.
          rewrite nth_error_map, Hj in H. specialize (H eq_refl). rewrite <- Nat.add_succ_comm in H. exact H.
        * destruct (H (S j) o' Hj) as [g Hg]. rewrite <- Nat.add_succ_comm in Hg. eauto.
  Qed.
End SxyP.

(** every program's routine sizes are where the whole list says *)
Lemma slice_sizes {F : Field} (p : prog F) : slice_at (sizes p) 1 (sub_sizes p).
Proof. intros k sz H. exact H. Qed.

Section SxyTop.
  Variable F : Field.
  Add Field FFc3 : (f_theory F).
  Open Scope f_scope.

  Lemma subs_sizes_rel (val : nat -> kind -> nat -> F) (p : prog F) sid nxt g av env szs :
    slice_at szs nxt (sub_sizes p) ->
    forall j o, nth_error (sm_subs (sem val p sid nxt g av env)) j = Some o ->
    exists g0, nth_error szs (nxt + j) = Some (g0, length o).
  Proof.
    intros H j o Hj. destruct (sem_lens F val p sid nxt g av env) as [_ L].
    assert (E : nth_error (map snd (sub_sizes p)) j = Some (length o)).
    { rewrite <- L, nth_error_map, Hj. reflexivity. }
    rewrite nth_error_map in E. destruct (nth_error (sub_sizes p) j) as [[g0 c0]|] eqn:En; [|discriminate].
    simpl in E. inversion E; subst. exists g0. apply H. exact En.
  Qed.

  (** s(x, y) for nonzero points *)
  Lemma sxy_ok (n : nat) (body : prog F) (outs : list wref) (x y : F) :
    let p := orchestrate body outs in
    (list_sum (map fst (sizes p)) <= n)%nat -> (list_sum (map snd (sizes p)) < 4 * n)%nat ->
    x <> 0 -> y <> 0 ->
    sxy_eval n (4 * n) body outs x y (floor_plan (sizes p)) = Some (s_spec n p x y).
  Proof.
    intros p Hg Hc Hx Hy. unfold sxy_eval.
    rewrite (proj2 (feqb_false F x 0) Hx), (proj2 (feqb_false F y 0) Hy).
    fold p.
    assert (Hsz : sizes p = (used false p, own_cons p) :: sub_sizes p) by (unfold sizes; rewrite used_scope; reflexivity).
    destruct (slice_bounds (sizes p) 0 (used false p, own_cons p)) as [B1 B2]; [rewrite Hsz; reflexivity|].
    cbn [fst snd] in B1, B2.
    destruct (xy_run_ok F n (4 * n) x y Hx (sizes p) Hg ltac:(lia) p 0 1 0 None []
      (mk_xscope F None (sqr (x ^ n) * finv x) (sqr (x ^ n)) (sqr (sqr (x ^ n)) * finv x) 0 0 0 0) 0)
      as (env' & s' & E & P).
    { reflexivity. }
    { repeat split; cbn; ring. }
    { cbn [is_some]. change (gate_off (sizes p) 0) with 0%nat in B1. lia. }
    { cbn [xs_cons]. change (cons_off (sizes p) 0) with 0%nat in B2. lia. }
    { apply slice_sizes. }
    { lia. }
    cbn [Nat.sub] in E. rewrite E. rewrite floor_plan_nth, floor_plan_length. rewrite Hsz at 1. cbn [nth_error].
    cbn zeta in P. cbn [xs_cons xs_result xs_sum is_some map] in P.
    destruct P as (P1 & P2 & P3 & P4 & P5). cbn [num_gates num_constraints].
    rewrite P2, P3, Hsz. cbn [length Nat.add]. rewrite !Nat.eqb_refl. cbn [andb]. f_equal.
    rewrite P4, P5. unfold s_spec, y_coeffs, cons_vals. cbn zeta.
    rewrite (sub_sum_flat F y (sizes p)).
    2:{ right. intros j o Hj. eapply subs_sizes_rel; [apply slice_sizes|exact Hj]. }
    cbn [flat_map]. rewrite peval_app, rev_length.
    destruct (sem_lens F (placed (sizes p) (mono n x)) p 0 1 0 None []) as [L _]. rewrite L.
    replace (cons_off (sizes p) 1) with (own_cons p)
      by (rewrite (cons_off_S _ 0 (used false p, own_cons p)) by (rewrite Hsz; reflexivity); reflexivity).
    ring.
  Qed.
End SxyTop.

Lemma nth_upd {A : Type} (l : list A) i v j d :
  nth j (upd l i v) d = if Nat.eqb j i && (i <? length l) then v else nth j l d.
Proof.
  revert i j. induction l as [|z l IH]; intros [|i] [|j]; try reflexivity.
  - cbn. rewrite andb_false_r. reflexivity.
  - cbn [upd nth length]. rewrite IH. reflexivity.
Qed.

Section SxP.
  Variable F : Field.
  Add Field FFc4 : (f_theory F).
  Open Scope f_scope.
  Variables (n NC : nat) (x : F).
  Hypothesis Hx : x <> 0.
  Variable szs : list (nat * nat).
  Hypothesis Hgates : (list_sum (map fst szs) <= n)%nat.
  Hypothesis Hcons : (list_sum (map snd szs) <= NC - 1)%nat.
  Variable T : nat -> F.

  Let xinv := finv x.
  Let one := sqr (x ^ n).
  Let ba := sqr (x ^ n) * finv x.
  Let bb := sqr (x ^ n).
  Let bc := sqr (sqr (x ^ n)) * finv x.
  Let b2d := sqr (finv x ^ n).
  Let plan := floor_plan szs.
  Let val := placed szs (mono n x).

  Definition sscope_inv (gs g : nat) (av : option F) (s : sscope F) : Prop :=
    ss_a F s = ba * xinv ^ (gs + g) /\ ss_b F s = bb * x ^ (gs + g) /\
    ss_c F s = bc * xinv ^ (gs + g) /\ ss_gates F s = (gs + g)%nat /\
    option_map (deref F one) (ss_avail F s) = av.

  Lemma sx_advance_ok gs g av s : sscope_inv gs g av s -> (gs + g < n)%nat ->
    exists s', sx_advance F n x xinv s
      = Some (s', (mono n x KA (gs + g), mono n x KB (gs + g), mono n x KC (gs + g))) /\
      sscope_inv gs (S g) av s' /\ ss_avail F s' = ss_avail F s /\
      ss_cons F s' = ss_cons F s.
  Proof.
    intros (Ha & Hb & Hc & Hg & Hv) H. unfold sx_advance. rewrite Hg.
    destruct (Nat.eqb_spec (gs + g) n); [lia|]. eexists. split; [|].
    - f_equal. f_equal. rewrite Ha, Hb, Hc. unfold ba, bb, bc, xinv.
      rewrite base_a_mono, base_b_mono, base_c_mono by auto. reflexivity.
    - cbn. repeat split; auto; cbn; rewrite ?Nat.add_succ_r, ?Ha, ?Hb, ?Hc; cbn [fpow];
        try ring; rewrite ?Hg; reflexivity.
  Qed.
  Lemma sx_b2d_ok i : mono n x KB i * b2d = mono n x KD i.
  Proof. rewrite <- base_b_mono. unfold b2d. apply b_to_d_mono. exact Hx. Qed.

  Local Notation run := (sx_run F n NC x xinv one ba bb bc b2d plan).
  Local Opaque used.

  Definition in_rng (lo hi q : nat) : bool := (lo <=? q) && (q <? hi).

  Lemma sx_run_ok : forall p sid nxt g av env s res gs,
    gate_off szs sid = gs -> sscope_inv gs g av s ->
    (gs + g + used (is_some av) p <= n)%nat ->
    (ss_cons F s + own_cons p <= NC - 1)%nat -> length res = NC ->
    slice_at szs nxt (sub_sizes p) -> (1 <= nxt)%nat ->
    let r := sem val p sid nxt g av (map (deref F one) env) in
    (forall j, (j < own_cons p)%nat -> T (ss_cons F s + j) = nth j (sm_own r) 0) ->
    (forall k j o, nth_error (sm_subs r) k = Some o -> (j < length o)%nat ->
       T (cons_off szs (nxt + k) + j) = nth j o 0) ->
    exists env' s' res',
      run p env s res (nxt - 1) = Some (env', s', res', nxt - 1 + length (sub_sizes p))%nat /\
      map (deref F one) env' = sm_env r /\
      ss_gates F s' = (gs + g + used (is_some av) p)%nat /\
      ss_cons F s' = (ss_cons F s + own_cons p)%nat /\ length res' = NC /\
      forall q, nth q res' 0 =
        if in_rng (ss_cons F s) (ss_cons F s + own_cons p) q
           || in_rng (cons_off szs nxt) (cons_off szs (nxt + length (sub_sizes p))) q
        then T q else nth q res 0.
  Proof.
    assert (Hone : one_val val = one).
    { unfold one_val, val, placed, one. rewrite one_mono. reflexivity. }
    induction p as [|a b c d p IH|a b c p IH|v p IH|lc p IH|lc p IH|w p IH|i p IH|kn ins body IHb outs p IHk];
      intros sid nxt g av env s res gs Hgs Hs Hb Hc Hl Hsl Hn r HT1 HT2;
      assert (Hval : forall kd, val sid kd g = mono n x kd (gs + g)) by (intros kd; unfold val, placed; rewrite Hgs; reflexivity).
    - exists env, s, res. unfold r. cbn [sx_run sub_sizes length own_cons sem sm_env]. rewrite !Nat.add_0_r. split; [reflexivity|].
      rewrite used_end, Nat.add_0_r. destruct Hs as (_ & _ & _ & Hg & _). repeat split; auto.
      intros q. unfold in_rng.
      destruct (Nat.leb_spec (ss_cons F s) q); destruct (Nat.ltb_spec q (ss_cons F s)); try lia;
      destruct (Nat.leb_spec (cons_off szs nxt) q); destruct (Nat.ltb_spec q (cons_off szs nxt)); try lia; reflexivity.
    - rewrite used_gate in Hb. destruct (sx_advance_ok gs g av s Hs) as (s1 & E1 & Hs1 & _ & C1); [lia|].
      cbn [own_cons] in Hc.
      cbn [sx_run]. rewrite E1. rewrite sx_b2d_ok. unfold r in *. cbn [sem own_cons] in HT1, HT2 |- *. rewrite !Hval in *.
      rewrite used_gate.
      match goal with |- context [sx_run _ _ _ _ _ _ _ _ _ _ _ p ?e ?ss ?rr _] =>
        destruct (IH sid nxt (S g) av e ss rr gs) as (env' & s' & res' & E & P1 & P2 & P3 & P4 & P5) end; auto; try lia.
      { rewrite C1. rewrite map_app. exact HT1. }
      { rewrite map_app. exact HT2. }
      exists env', s', res'. rewrite map_app in P1. rewrite C1 in P3, P5.
      repeat split; auto. rewrite P2. lia.
    - rewrite used_mul in Hb. destruct (sx_advance_ok gs g av s Hs) as (s1 & E1 & Hs1 & _ & C1); [lia|].
      cbn [own_cons] in Hc.
      cbn [sx_run]. rewrite E1. unfold r in *. cbn [sem own_cons] in HT1, HT2 |- *. rewrite !Hval in *.
      rewrite used_mul.
      match goal with |- context [sx_run _ _ _ _ _ _ _ _ _ _ _ p ?e ?ss ?rr _] =>
        destruct (IH sid nxt (S g) av e ss rr gs) as (env' & s' & res' & E & P1 & P2 & P3 & P4 & P5) end; auto; try lia.
      { rewrite C1. rewrite map_app. exact HT1. }
      { rewrite map_app. exact HT2. }
      exists env', s', res'. rewrite map_app in P1. rewrite C1 in P3, P5.
      repeat split; auto. rewrite P2. lia.
    - cbn [sx_run]. unfold r in *. cbn [sem own_cons] in Hc, HT1, HT2 |- *.
      destruct Hs as (Ha & Hb' & Hc' & Hg & Hv).
      destruct (ss_avail F s) as [w|] eqn:Ea; simpl in Hv; subst av.
      + cbn [is_some] in *. rewrite used_alloc_half in *.
        destruct (IH sid nxt g None (env ++ [w]) (ss_set_avail F s None) res gs)
          as (env' & s' & res' & E & P1 & P2 & P3 & P4 & P5); auto.
        { repeat split; auto. }
        { rewrite map_app. exact HT1. }
        { rewrite map_app. exact HT2. }
        exists env', s', res'. rewrite map_app in P1. repeat split; auto.
      + cbn [is_some] in *. rewrite used_alloc_full in *.
        destruct (sx_advance_ok gs g None s) as (s1 & E1 & Hs1 & V1 & C1); [|lia|].
        { repeat split; auto. rewrite Ea. reflexivity. }
        rewrite E1, sx_b2d_ok. rewrite !Hval in *.
        match goal with |- context [sx_run _ _ _ _ _ _ _ _ _ _ _ p ?e ?ss ?rr _] =>
          destruct (IH sid nxt (S g) (Some (mono n x KD (gs + g))) e ss rr gs)
            as (env' & s' & res' & E & P1 & P2 & P3 & P4 & P5) end; auto; try lia.
        { destruct Hs1 as (A1 & A2 & A3 & A4 & A5). repeat split; auto. }
        { cbn [is_some]. lia. }
        { cbn. rewrite C1. lia. }
        { cbn [ss_set_avail ss_cons]. rewrite C1. rewrite map_app. exact HT1. }
        { rewrite map_app. exact HT2. }
        exists env', s', res'. rewrite map_app in P1. cbn [ss_set_avail ss_cons] in P3, P5. rewrite C1 in P3, P5.
        cbn [is_some] in P2.
        repeat split; auto. rewrite P2. lia.
    - cbn [sx_run]. unfold r in *. cbn [sem own_cons] in Hc, HT1, HT2 |- *.
      assert (Ev : lc_val val (map (deref F one) env) lc = we_lc F one env lc).
      { rewrite we_lc_ok. unfold lc_val. rewrite Hone. reflexivity. }
      rewrite Ev in *.
      destruct (IH sid nxt g av (env ++ [WEValue (we_lc F one env lc)]) s res gs)
        as (env' & s' & res' & E & P1 & P2 & P3 & P4 & P5); auto.
      { rewrite map_app. exact HT1. }
      { rewrite map_app. exact HT2. }
      exists env', s', res'. rewrite map_app in P1. repeat split; auto.
    - cbn [sx_run]. unfold r in *. cbn [sem own_cons sm_own sm_subs sm_env] in Hc, HT1, HT2 |- *.
      destruct (Nat.leb_spec (NC - 1) (ss_cons F s)); [lia|].
      assert (Ev : lc_val val (map (deref F one) env) lc = we_lc F one env lc).
      { rewrite we_lc_ok. unfold lc_val. rewrite Hone. reflexivity. }
      rewrite Ev in *.
      match goal with |- context [sx_run _ _ _ _ _ _ _ _ _ _ _ p ?e ?ss ?rr _] =>
        destruct (IH sid nxt g av e ss rr gs) as (env' & s' & res' & E & P1 & P2 & P3 & P4 & P5) end; auto.
      { cbn. lia. }
      { rewrite upd_length. exact Hl. }
      { intros j Hj. cbn [ss_cons]. rewrite Nat.add_succ_comm. rewrite (HT1 (S j)) by lia. reflexivity. }
      exists env', s', res'. cbn [ss_cons] in P3, P5. repeat split; auto; try lia.
      intros q. rewrite P5. rewrite nth_upd, Hl.
      pose proof (HT1 0%nat ltac:(lia)) as T0. rewrite Nat.add_0_r in T0. cbn [nth] in T0.
      rewrite <- T0. unfold in_rng.
      destruct (Nat.ltb_spec (ss_cons F s) NC); [|lia]. rewrite andb_true_r.
      destruct (Nat.eqb_spec q (ss_cons F s)) as [->|Hq].
      + destruct (Nat.leb_spec (ss_cons F s) (ss_cons F s)); [|lia].
        destruct (Nat.ltb_spec (ss_cons F s) (ss_cons F s + S (own_cons p))); [|lia]. cbn [andb orb].
        match goal with |- (if ?b then _ else _) = _ => destruct b; reflexivity end.
      + replace (S (ss_cons F s) <=? q) with (ss_cons F s <=? q)
          by (destruct (Nat.leb_spec (ss_cons F s) q), (Nat.leb_spec (S (ss_cons F s)) q); lia).
        replace (S (ss_cons F s) + own_cons p)%nat with (ss_cons F s + S (own_cons p))%nat by lia.
        reflexivity.
    - cbn [sx_run]. unfold r in *. cbn [sem own_cons] in Hc, HT1, HT2 |- *. rewrite Hone in *.
      rewrite <- deref_lookup in *.
      destruct (IH sid nxt g av (env ++ [lookup WEOne env w]) s res gs)
        as (env' & s' & res' & E & P1 & P2 & P3 & P4 & P5); auto.
      { rewrite map_app. exact HT1. }
      { rewrite map_app. exact HT2. }
      exists env', s', res'. rewrite map_app in P1. repeat split; auto.
    - apply (IH sid nxt g av env s res gs); auto.
    - cbn [sx_run]. cbn [sub_sizes] in Hsl. destruct (slice_cons _ _ _ _ Hsl) as [H0 Hsl1].
      destruct (slice_app _ _ _ _ Hsl1) as [Hslb Hslk].
      replace (S (nxt - 1)) with nxt by lia.
      unfold plan at 1. rewrite floor_plan_nth, H0, used_scope. cbn [gate_start constraint_start num_gates num_constraints].
      rewrite used_scope in H0. destruct (slice_bounds _ _ _ H0) as [Bg Bc]. cbn [fst snd] in Bg, Bc.
      pose proof (cons_off_S _ _ _ H0) as Co. cbn [snd] in Co.
      destruct (slice_off _ _ _ Hslb) as [Cb _]. destruct (slice_off _ _ _ Hslk) as [Ck _].
      unfold r in *. cbn [sem own_cons sm_own sm_subs sm_env] in Hc, HT1, HT2 |- *. rewrite Hone in *.
      set (rb := sem val body nxt (S nxt) 0 None (map (lookup one (map (deref F one) env)) ins)) in *.
      assert (Lb : length (sm_subs rb) = length (sub_sizes body)) by apply sem_subs_length.
      set (rk := sem val p sid (S nxt + length (sm_subs rb)) g av
                   (map (deref F one) env ++ map (lookup one (sm_env rb)) outs)) in *.
      destruct (sem_lens F val body nxt (S nxt) 0 None (map (lookup one (map (deref F one) env)) ins)) as [Lo _].
      fold rb in Lo.
      set (init := mk_sscope F None _ _ _ _ _).
      destruct (IHb nxt (S nxt) 0%nat None (map (lookup WEOne env) ins) init res (gate_off szs nxt))
        as (cenv & cs & res1 & Eb & Q1 & Q2 & Q3 & Q4 & Q5); auto; try lia.
      { unfold init. repeat split; cbn; rewrite ?Nat.add_0_r; reflexivity. }
      { cbn [is_some]. lia. }
      { cbn. lia. }
      { intros j Hj. rewrite map_deref_lookup. fold rb. cbn [init ss_cons].
        specialize (HT2 0%nat j (sm_own rb) eq_refl). rewrite Nat.add_0_r in HT2. apply HT2. lia. }
      { intros k j o. rewrite map_deref_lookup. fold rb. intros Hk Hj.
        replace (S nxt + k)%nat with (nxt + S k)%nat by lia. apply HT2; auto.
        cbn [nth_error]. rewrite nth_error_app1; [exact Hk|]. apply nth_error_Some. congruence. }
      replace (S nxt - 1)%nat with nxt in Eb by lia. rewrite Eb.
      rewrite map_deref_lookup in Q1. fold rb in Q1. unfold init in Q3, Q5. cbn [ss_cons is_some] in Q2, Q3, Q5.
      rewrite Q2, Q3, Nat.add_0_r, !Nat.eqb_refl. cbn [andb].
      assert (Ek : sem val p sid (S nxt + length (sub_sizes body)) g av
                     (map (deref F one) (env ++ map (lookup WEOne cenv) outs)) = rk).
      { unfold rk. rewrite map_app, map_deref_lookup, Q1, Lb. reflexivity. }
      match goal with |- context [sx_run _ _ _ _ _ _ _ _ _ _ _ p ?e ?ss ?rr _] =>
        destruct (IHk sid (S nxt + length (sub_sizes body)) g av e ss rr gs)%nat
          as (env' & s' & res' & E & P1 & P2 & P3 & P4 & P5) end; auto; try lia.
      { rewrite Ek. exact HT1. }
      { rewrite Ek. intros k j o Hk Hj.
        replace (S nxt + length (sub_sizes body) + k)%nat with (nxt + S (length (sm_subs rb) + k))%nat by lia.
        apply HT2; auto. cbn [nth_error]. rewrite nth_error_app2 by lia.
        replace (length (sm_subs rb) + k - length (sm_subs rb))%nat with k by lia. exact Hk. }
      rewrite Ek in P1.
      replace (S nxt + length (sub_sizes body) - 1)%nat with (nxt + length (sub_sizes body))%nat in E by lia.
      exists env', s', res'. repeat split; auto.
      { rewrite E. do 2 f_equal. cbn [sub_sizes length]. rewrite app_length. lia. }
      intros q. rewrite P5, Q5. cbn [sub_sizes length]. rewrite app_length.
      replace (nxt + S (length (sub_sizes body) + length (sub_sizes p)))%nat
        with (S nxt + length (sub_sizes body) + length (sub_sizes p))%nat by lia.
      set (o1 := cons_off szs nxt) in *. set (o2 := cons_off szs (S nxt)) in *.
      set (o3 := cons_off szs (S nxt + length (sub_sizes body))) in *.
      set (o4 := cons_off szs (S nxt + length (sub_sizes body) + length (sub_sizes p))) in *.
      destruct (in_rng (ss_cons F s) (ss_cons F s + own_cons p) q); [reflexivity|]. cbn [orb].
      unfold in_rng. rewrite <- Co.
      destruct (Nat.leb_spec o3 q), (Nat.ltb_spec q o4), (Nat.leb_spec o1 q), (Nat.ltb_spec q o2),
        (Nat.leb_spec o2 q), (Nat.ltb_spec q o3); cbn [andb orb]; try reflexivity; lia.
  Qed.
End SxP.

Section SxTop.
  Variable F : Field.
  Add Field FFc5 : (f_theory F).
  Open Scope f_scope.

  (** reversing the range of each segment in turn *)
  Lemma rev_slices : forall (segs : list (list F)) (recs : list (nat * nat)) gs cs (pre tl : list F),
    map snd recs = map (@length F) segs -> cs = length pre ->
    fold_left (fun v seg => rev_slice F (constraint_start seg) (num_constraints seg) v)
              (floor_go gs cs recs) (pre ++ concat segs ++ tl)
    = pre ++ flat_map (@rev F) segs ++ tl.
  Proof.
    induction segs as [|o segs IH]; intros [|[g c] recs] gs cs pre tl H Hc; try discriminate; [reflexivity|].
    simpl in H. inversion H as [[H1 H2]]. cbn [floor_go fold_left concat flat_map constraint_start num_constraints].
    assert (E : rev_slice F cs (length o) (pre ++ (o ++ concat segs) ++ tl)
                = (pre ++ rev o) ++ concat segs ++ tl).
    { unfold rev_slice. subst cs. rewrite firstn_app, firstn_all, Nat.sub_diag. cbn [firstn]. rewrite app_nil_r.
      rewrite skipn_app, skipn_all, Nat.sub_diag. cbn [skipn app].
      rewrite <- !app_assoc. f_equal.
      rewrite firstn_app, firstn_all, Nat.sub_diag. cbn [firstn]. rewrite app_nil_r.
      f_equal. rewrite !app_assoc. rewrite <- app_assoc. rewrite skipn_app.
      rewrite (skipn_all2 (n := length pre + length o)) by (rewrite app_length; lia).
      rewrite app_length, Nat.sub_diag. reflexivity. }
    rewrite E. rewrite IH; auto.
    - rewrite <- !app_assoc. reflexivity.
    - rewrite app_length, rev_length. lia.
  Qed.

  Lemma nth_concat : forall (segs : list (list F)) (recs : list (nat * nat)) k j o,
    map snd recs = map (@length F) segs -> nth_error segs k = Some o -> (j < length o)%nat ->
    nth (cons_off recs k + j) (concat segs) 0 = nth j o 0.
  Proof.
    induction segs as [|o' segs IH]; intros [|[g c] recs] k j o H Hk Hj; try discriminate; [destruct k; discriminate|].
    simpl in H. inversion H as [[H1 H2]]. destruct k as [|k]; simpl in Hk.
    - inversion Hk; subst. unfold cons_off. simpl. apply app_nth1. exact Hj.
    - unfold cons_off. simpl. rewrite app_nth2 by lia.
      rewrite <- (IH recs k j o H2 Hk Hj). f_equal. unfold cons_off. lia.
  Qed.

  Lemma concat_length (segs : list (list F)) (recs : list (nat * nat)) :
    map snd recs = map (@length F) segs -> length (concat segs) = list_sum (map snd recs).
  Proof.
    intros H. rewrite H. clear. induction segs as [|o segs IH]; [reflexivity|].
    simpl. rewrite app_length, IH. reflexivity.
  Qed.

  Lemma vals_sizes (val : nat -> kind -> nat -> F) (p : prog F) :
    map snd (sizes p) = map (@length F) (cons_vals val p).
  Proof.
    unfold cons_vals, sizes. cbn zeta. cbn [map]. rewrite used_scope. cbn [snd].
    destruct (sem_lens F val p 0 1 0 None []) as [L1 L2]. rewrite L1, L2. reflexivity.
  Qed.

  Lemma flat_rev_length (l : list (list F)) : length (flat_map (@rev F) l) = length (concat l).
  Proof. induction l as [|o l IH]; simpl; [reflexivity|]. rewrite !app_length, rev_length, IH. reflexivity. Qed.

  Lemma y_coeffs_length (val : nat -> kind -> nat -> F) p :
    length (y_coeffs val p) = list_sum (map snd (sizes p)).
  Proof. unfold y_coeffs. rewrite flat_rev_length. apply concat_length. apply vals_sizes. Qed.

  (** the last root constraint is ONE *)
  Lemma sem_enforce_outputs (val : nat -> kind -> nat -> F) : forall outs sid nxt g av env,
    sm_own (sem val (enforce_outputs outs) sid nxt g av env)
    = map (lookup (one_val val) env) outs ++ [one_val val] /\
    sm_subs (sem val (enforce_outputs outs) sid nxt g av env) = [].
  Proof.
    induction outs as [|o r IH]; intros sid nxt g av env; cbn [enforce_outputs sem sm_own sm_subs map app].
    - split; [|reflexivity]. f_equal. unfold lc_val, lin_spec. simpl. unfold gains. simpl. ring.
    - destruct (IH sid nxt g av env) as [E1 E2]. rewrite E1, E2. split; [|reflexivity].
      f_equal. unfold lc_val, lin_spec. simpl. unfold gains. simpl. ring.
  Qed.
  Lemma sem_app (val : nat -> kind -> nat -> F) : forall p q sid nxt g av env,
    exists g' av', sem val (prog_app p q) sid nxt g av env =
      let rp := sem val p sid nxt g av env in
      let rq := sem val q sid (nxt + length (sm_subs rp)) g' av' (sm_env rp) in
      mk_sres (sm_env rq) (sm_own rp ++ sm_own rq) (sm_subs rp ++ sm_subs rq).
  Proof.
    induction p as [|a b c d p IH|a b c p IH|v p IH|lc p IH|lc p IH|w p IH|i p IH|kn ins body IHb outs p IHk];
      intros q sid nxt g av env; cbn [prog_app sem]; auto.
    - exists g, av. cbn. rewrite Nat.add_0_r. destruct (sem val q sid nxt g av env); reflexivity.
    - destruct av; auto.
    - destruct (IH q sid nxt g av env) as (g' & av' & E). exists g', av'. rewrite E. reflexivity.
    - match goal with |- context [sem val p sid ?n1 g av ?e1] =>
        destruct (IHk q sid n1 g av e1) as (g' & av' & E) end.
      exists g', av'. rewrite E. cbn [sm_env sm_own sm_subs length]. 
      set (rb := sem val body nxt (S nxt) 0 None (map (lookup (one_val val) env) ins)) in *.
      set (rk := sem val p sid (S nxt + length (sm_subs rb)) g av _) in *.
      cbn zeta. rewrite <- app_comm_cons, <- app_assoc.
      replace (nxt + S (length (sm_subs rb ++ sm_subs rk)))%nat
        with (S nxt + length (sm_subs rb) + length (sm_subs rk))%nat by (simpl; rewrite app_length; lia).
      reflexivity.
  Qed.
  Lemma orch_own (val : nat -> kind -> nat -> F) body outs :
    exists own env, sm_own (sem val (orchestrate body outs) 0 1 0 None []) =
      own ++ map (lookup (one_val val) env) outs ++ [one_val val].
  Proof.
    unfold orchestrate. cbn [sem].
    destruct (sem_app val body (enforce_outputs outs) 0 1 1 None
      ([] ++ [val 0%nat KA 0%nat; val 0%nat KB 0%nat; val 0%nat KC 0%nat; val 0%nat KD 0%nat]))
      as (g' & av' & E).
    rewrite E. cbn [sm_own].
    rewrite (proj1 (sem_enforce_outputs val outs _ _ _ _ _)). eauto.
  Qed.
  Lemma y_coeffs_0 (val : nat -> kind -> nat -> F) body outs :
    nth 0 (y_coeffs val (orchestrate body outs)) 0 = one_val val.
  Proof.
    unfold y_coeffs, cons_vals. cbn [flat_map].
    destruct (orch_own val body outs) as (own & env & E). rewrite E.
    rewrite !app_assoc, rev_app_distr. reflexivity.
  Qed.

  Lemma sx_ok (n : nat) (body : prog F) (outs : list wref) (x : F) :
    let p := orchestrate body outs in
    (list_sum (map fst (sizes p)) <= n)%nat -> (list_sum (map snd (sizes p)) < 4 * n)%nat ->
    x <> 0 ->
    exists q, sx_eval n (4 * n) body outs x (floor_plan (sizes p)) = Some q /\
      wf 0 (4 * n) q /\
      forall k, coeff_at q k = nth k (y_coeffs (placed (sizes p) (mono n x)) p) 0.
  Proof.
    intros p Hg Hc Hx. unfold sx_eval.
    rewrite (proj2 (feqb_false F x 0) Hx). fold p.
    assert (Hsz : sizes p = (used false p, own_cons p) :: sub_sizes p) by (unfold sizes; rewrite used_scope; reflexivity).
    destruct (slice_bounds (sizes p) 0 (used false p, own_cons p)) as [B1 B2]; [rewrite Hsz; reflexivity|].
    cbn [fst snd] in B1, B2. change (gate_off (sizes p) 0) with 0%nat in B1. change (cons_off (sizes p) 0) with 0%nat in B2.
    set (val := placed (sizes p) (mono n x)).
    set (T := concat (cons_vals val p)).
    assert (VS := vals_sizes val p).
    assert (LT : length T = list_sum (map snd (sizes p))) by (apply concat_length; exact VS).
    destruct (sx_run_ok F n (4 * n) x Hx (sizes p) Hg ltac:(lia) (fun q => nth q T 0) p 0 1 0 None []
      (mk_sscope F None (sqr (x ^ n) * finv x) (sqr (x ^ n)) (sqr (sqr (x ^ n)) * finv x) 0 0)
      (repeat 0 (4 * n)) 0) as (env' & s' & res' & E & P1 & P2 & P3 & P4 & P5).
    { reflexivity. }
    { repeat split; cbn; ring. }
    { cbn [is_some]. lia. }
    { cbn [ss_cons]. lia. }
    { apply repeat_length. }
    { apply slice_sizes. }
    { lia. }
    { intros j Hj. cbn [ss_cons map]. fold val.
      assert (Q := nth_concat (cons_vals val p) (sizes p) 0 j (sm_own (sem val p 0 1 0 None [])) VS eq_refl).
      apply Q. destruct (sem_lens F val p 0 1 0 None []) as [L _]. rewrite L. exact Hj. }
    { intros k j o Hk Hj. cbn [map] in Hk. fold val in Hk.
      apply (nth_concat (cons_vals val p) (sizes p) (S k) j o VS); auto. }
    cbn [Nat.sub] in E. rewrite E. rewrite floor_plan_nth, floor_plan_length.
    assert (H0 : nth_error (sizes p) 0 = Some (used false p, own_cons p)) by (rewrite Hsz; reflexivity).
    assert (HL : length (sizes p) = S (length (sub_sizes p))) by (rewrite Hsz; reflexivity).
    rewrite H0, HL.
    cbn [ss_cons is_some map num_gates num_constraints] in P2, P3, P5 |- *.
    rewrite P2, P3. cbn [Nat.add]. rewrite !Nat.eqb_refl. cbn [andb].
    assert (Eres : res' = [] ++ T ++ repeat 0 (4 * n - length T)).
    { cbn [app]. apply nth_ext with (d := 0) (d' := 0).
      - rewrite app_length, repeat_length. lia.
      - intros q Hq. rewrite P5.
        assert (O1 : cons_off (sizes p) 1 = own_cons p) by (rewrite Hsz; unfold cons_off; simpl; lia).
        assert (O2 : cons_off (sizes p) (1 + length (sub_sizes p)) = length T).
        { destruct (slice_off _ _ _ (slice_sizes p)) as [Q _]. rewrite Q, O1, LT.
          rewrite Hsz. cbn [map]. rewrite list_sum_cons. reflexivity. }
        rewrite O1, O2. unfold in_rng.
        destruct (Nat.lt_ge_cases q (length T)) as [Hlt|Hge].
        + rewrite app_nth1 by exact Hlt. cbn [Nat.leb andb].
          destruct (Nat.ltb_spec q (0 + own_cons p)), (Nat.leb_spec (own_cons p) q), (Nat.ltb_spec q (length T));
            cbn [andb orb]; try reflexivity; lia.
        + rewrite app_nth2 by exact Hge. rewrite !nth_repeat.
          destruct (Nat.leb_spec 0 q), (Nat.ltb_spec q (0 + own_cons p)), (Nat.leb_spec (own_cons p) q), (Nat.ltb_spec q (length T));
            cbn [andb orb]; try reflexivity; lia. }
    set (R := y_coeffs val p ++ repeat 0 (4 * n - length T)).
    assert (EF : fold_left (fun v seg => rev_slice F (constraint_start seg) (num_constraints seg) v)
                   (floor_plan (sizes p)) res' = R).
    { rewrite Eres. exact (rev_slices (cons_vals val p) (sizes p) 0 0 [] _ VS eq_refl). }
    rewrite EF.
    assert (LR : length R = (4 * n)%nat).
    { unfold R. rewrite app_length, y_coeffs_length, repeat_length, LT. lia. }
    assert (Rn : forall k, nth k R 0 = nth k (y_coeffs val p) 0).
    { intros k. unfold R. destruct (Nat.lt_ge_cases k (length (y_coeffs val p))) as [Hlt|Hge].
      - apply app_nth1. exact Hlt.
      - rewrite app_nth2 by exact Hge. rewrite nth_repeat. symmetry. apply nth_overflow. exact Hge. }
    assert (R0 : nth 0 R 0 = sqr (x ^ n)).
    { rewrite Rn. unfold p. rewrite y_coeffs_0. unfold one_val, val, placed. rewrite one_mono. reflexivity. }
    rewrite R0, feqb_refl. 
    destruct (from_coeffs_ok F (4 * n) R) as (q & E1 & E2 & E3 & _); [lia|].
    exists q. split; [exact E1|]. split; [exact E2|]. intros k. rewrite E3. apply Rn.
  Qed.
End SxTop.
