(** Agreement of the three s(X,Y) evaluators, including at x = 0 and y = 0. *)
From Coq Require Import List Arith Lia Bool Ring Field.
From Verif Require Import FieldDef ArithModel ArithSpec ArithProofs FFTModel SparseModel SparseSpec SparseProofs SparseProofs2
  CircModel SyModel CircSpec CircProofs CircProofs2 SyProofs SyProofs2.
Import ListNotations.

Section SP.
  Variable F : Field.
  Add Field FFsp : (f_theory F).
  Open Scope f_scope.

  Definition rok (b : bool) (r : wref) : Prop := b = true -> ref_hides r = true.
  Definition env_z (b : bool) (env : list F) : Prop :=
    forall i, (b = true -> i <> 3%nat) -> nth i env 0 = 0.

  Lemma lookup_z b env r one : one = 0 -> env_z b env -> rok b r -> lookup one env r = 0.
  Proof.
    intros -> He Hr. destruct r as [|i]; cbn [lookup]; auto. apply He. intros Hb.
    specialize (Hr Hb). cbn in Hr. intros ->. discriminate.
  Qed.
  Lemma lsum_zero_map {A : Type} (f : A -> F) l : (forall a, In a l -> f a = 0) -> lsum (map f l) = 0.
  Proof.
    induction l as [|a l IH]; intros H; [reflexivity|]. cbn [map lsum fold_right].
    change (f a + lsum (map f l) = 0). rewrite IH, (H a) by (intros; try apply H; cbn; auto). ring.
  Qed.
  Definition lok (b : bool) (lc : list (lcall F wref)) : Prop := b = true -> lc_hides lc = true.
  Lemma lc_z b env lc one : one = 0 -> env_z b env -> lok b lc -> lin_spec (lookup one env) lc = 0.
  Proof.
    intros H1 He Hl. unfold lin_spec. apply fsum_zero. intros i Hi.
    destruct (nth_error lc i) as [op|] eqn:E; [|ring].
    assert (Hop : b = true -> match op with
                     | LTerm w _ | LAdd w | LSub w => ref_hides w
                     | LGain _ => true
                     | LExtend ts => forallb (fun t => ref_hides (fst t)) ts
                     end = true).
    { intros Hb. specialize (Hl Hb). unfold lc_hides in Hl. rewrite forallb_forall in Hl.
      apply (Hl op). eapply nth_error_In; eauto. }
    destruct op as [w c|c|w|w|ts]; cbn [call_sum]; try rewrite (lookup_z b env w one) by auto; try ring.
    rewrite lsum_zero_map; [ring|]. intros [w c] Hin. cbn [fst snd].
    rewrite (lookup_z b env w one); auto; [ring|]. intros Hb. specialize (Hop Hb).
    rewrite forallb_forall in Hop. apply (Hop (w, c)). exact Hin.
  Qed.
  Lemma env_z_app b env l : env_z b env -> Forall (fun v => v = 0) l -> env_z b (env ++ l).
  Proof.
    intros He Hl i Hi. destruct (Nat.lt_ge_cases i (length env)) as [H|H].
    - rewrite app_nth1 by lia. auto.
    - rewrite app_nth2 by lia.
      destruct (Nat.lt_ge_cases (i - length env) (length l)) as [H2|H2]; [|now apply nth_overflow].
      rewrite Forall_forall in Hl. apply Hl. now apply nth_In.
  Qed.
  Lemma env_z_map {A : Type} (f : A -> F) l : (forall a, In a l -> f a = 0) -> env_z false (map f l).
  Proof.
    intros H i _. destruct (Nat.lt_ge_cases i (length (map f l))) as [H2|H2]; [|now apply nth_overflow].
    apply (nth_In _ 0) in H2. apply in_map_iff in H2. destruct H2 as (a & E & Hin). rewrite <- E. auto.
  Qed.

  (** a program that never reads entry 3 sees only zeros *)
  Lemma sem_zero (val : nat -> kind -> nat -> F) :
    one_val val = 0 -> (forall s k i, (1 <= s \/ 1 <= i)%nat -> val s k i = 0) ->
    forall p b sid nxt g av env,
      (1 <= nxt)%nat -> (1 <= sid \/ 1 <= g)%nat -> env_z b env -> (b = true -> hides_d p = true) ->
      (forall d, av = Some d -> d = 0) ->
      let r := sem val p sid nxt g av env in
      env_z b (sm_env r) /\ Forall (fun v => v = 0) (sm_own r) /\
      Forall (Forall (fun v => v = 0)) (sm_subs r).
  Proof.
    intros H1 Hv. induction p as [|a0 b0 c0 d0 k IH|a0 b0 c0 k IH|v k IH|lc k IH|lc k IH|w k IH|i k IH|kn ins bd IHb outs k IH];
      intros b sid nxt g av env Hn Hs He Hh Ha; cbn [sem].
    - cbn. repeat split; auto.
    - apply IH; auto; [lia|]. apply env_z_app; auto;
      repeat (apply Forall_cons || apply Forall_nil); apply Hv; lia.
    - apply IH; auto; [lia|]. apply env_z_app; auto;
      repeat (apply Forall_cons || apply Forall_nil); apply Hv; lia.
    - destruct av as [d|].
      + apply IH; auto; try discriminate. apply env_z_app; auto.
      + apply IH; auto; [lia| |intros d [= <-]; apply Hv; lia]. apply env_z_app; auto;
        constructor; auto; apply Hv; lia.
    - apply IH; auto; [|intros Hb; specialize (Hh Hb); cbn in Hh; now apply andb_true_iff in Hh].
      apply env_z_app; auto. constructor; auto.
      apply (lc_z b); auto. intros Hb; specialize (Hh Hb); cbn in Hh; now apply andb_true_iff in Hh.
    - cbn. destruct (IH b sid nxt g av env) as (A & B & C); auto.
      { intros Hb; specialize (Hh Hb); cbn in Hh; now apply andb_true_iff in Hh. }
      refine (conj A (conj _ C)). constructor; auto.
      apply (lc_z b); auto. intros Hb; specialize (Hh Hb); cbn in Hh; now apply andb_true_iff in Hh.
    - apply IH; auto; [|intros Hb; specialize (Hh Hb); cbn in Hh; now apply andb_true_iff in Hh].
      apply env_z_app; auto. constructor; auto. apply (lookup_z b); auto.
      intros Hb; specialize (Hh Hb); cbn in Hh; now apply andb_true_iff in Hh.
    - apply IH; auto.
    - assert (Hi : forall r, In r ins -> lookup (one_val val) env r = 0).
      { intros r Hr. apply (lookup_z b); auto. intros Hb. specialize (Hh Hb). cbn in Hh.
        apply andb_true_iff in Hh. destruct Hh as [Hh _]. rewrite forallb_forall in Hh. auto. }
      destruct (IHb false nxt (S nxt) 0%nat None (map (lookup (one_val val) env) ins)) as (A & B & C);
        try discriminate; try lia; [now apply env_z_map|].
      set (rb := sem val bd nxt (S nxt) 0 None (map (lookup (one_val val) env) ins)) in *.
      destruct (IH b sid (S nxt + length (sm_subs rb))%nat g av
                  (env ++ map (lookup (one_val val) (sm_env rb)) outs)) as (A' & B' & C'); auto; try lia.
      { apply env_z_app; auto. apply Forall_forall. intros x Hx. apply in_map_iff in Hx.
        destruct Hx as (r & <- & _). apply (lookup_z false); auto. intros Hb; discriminate. }
      { intros Hb; specialize (Hh Hb); cbn in Hh; now apply andb_true_iff in Hh. }
      cbn. refine (conj A' (conj B' _)). constructor; auto. apply Forall_app. auto.
  Qed.

  Lemma hides_app (p q : prog F) : hides_d (prog_app p q) = hides_d p && hides_d q.
  Proof.
    induction p; cbn [prog_app hides_d]; auto;
      match goal with H : _ = _ && _ |- _ => rewrite H end; now rewrite andb_assoc.
  Qed.
  Lemma hides_outs outs : hides_d (enforce_outputs (F := F) outs) = forallb ref_hides outs.
  Proof.
    induction outs as [|o r IH]; [reflexivity|]. cbn [enforce_outputs hides_d forallb]. rewrite IH.
    unfold lc_hides. cbn [forallb]. now rewrite andb_true_r.
  Qed.

  Lemma peval_all_zero (l : list F) y : Forall (fun v => v = 0) l -> peval l y = 0.
  Proof. induction 1; [reflexivity|]. cbn [peval]. subst. rewrite IHForall. ring. Qed.

  Lemma s_spec_x0 (n : nat) (body : prog F) (outs : list wref) (y : F) :
    let p := orchestrate body outs in
    (list_sum (map fst (sizes p)) <= n)%nat -> (list_sum (map snd (sizes p)) < 4 * n)%nat ->
    owned p [] <> None -> hides_d body = true -> forallb ref_hides outs = true ->
    s_spec n p 0 y = 0.
  Proof.
    intros p Hg Hc Ho Hb Hos.
    assert (Hn : (0 < n)%nat) by lia.
    destruct (feqb y 0) eqn:Ey.
    { apply feqb_true in Ey. subst y. unfold s_spec. rewrite peval_at_0.
      unfold p. rewrite y_coeffs_0. unfold one_val, placed. cbn [mono].
      apply fpow_zero. lia. }
    apply feqb_false in Ey.
    destruct (sy_bufs F n body outs y Hg Hc Ey Ho) as (a & b & c & d & _ & La & Lb & Lc & Ld & Hv).
    unfold s_spec. fold p in Hv.
    set (v := fun (k : kind) (i : nat) => match k, i with KD, O => 1 : F | _, _ => 0 end).
    rewrite <- (Hv (mono n 0)).
    set (G := list_sum (map fst (sizes p))) in *.
    assert (E : forall l k, buf F G (mono n 0) l k = buf F G v l k).
    { intros l k. unfold buf. apply fsum_ext. intros i Hi. f_equal. unfold v, mono. destruct k.
      - apply fpow_zero. lia.
      - apply fpow_zero. lia.
      - apply fpow_zero. lia.
      - destruct i; [reflexivity|]. apply fpow_zero. lia. }
    rewrite !E, Hv. apply peval_all_zero.
    assert (Hone : one_val (placed (sizes p) v) = 0) by reflexivity.
    assert (Hz : forall s k i, (1 <= s \/ 1 <= i)%nat -> placed (sizes p) v s k i = 0).
    { intros s k i H. unfold placed, v.
      assert (0 < gate_off (sizes p) s + i)%nat.
      { destruct H; [|lia]. pose proof (gate_off_mono (sizes p) 1 s ltac:(lia)).
        assert (0 < gate_off (sizes p) 1)%nat; [|lia].
        unfold sizes. rewrite used_scope. unfold gate_off. cbn [map firstn fst]. pose proof (orch_gates F body outs).
        fold p in H1. cbn [list_sum fold_right]. change (0 < used false p + 0)%nat. lia. }
      destruct k, (gate_off (sizes p) s + i)%nat; auto; lia. }
    unfold y_coeffs, cons_vals. cbn [flat_map].
    pose proof (sem_zero _ Hone Hz (prog_app body (enforce_outputs outs)) true 0%nat 1%nat 1%nat None
      [placed (sizes p) v 0 KA 0; placed (sizes p) v 0 KB 0; placed (sizes p) v 0 KC 0; placed (sizes p) v 0 KD 0]) as Hs.
    destruct Hs as (_ & A & B); try lia; try discriminate.
    - intros i Hi. specialize (Hi eq_refl). destruct i as [|[|[|[|[|i]]]]]; try reflexivity; congruence.
    - intros _. now rewrite hides_app, hides_outs, Hb, Hos.
    - change (sem (placed (sizes p) v) p 0 1 0 None [])
        with (sem (placed (sizes p) v) (prog_app body (enforce_outputs outs)) 0 1 1 None
      [placed (sizes p) v 0 KA 0; placed (sizes p) v 0 KB 0; placed (sizes p) v 0 KC 0; placed (sizes p) v 0 KD 0]).
      apply Forall_app. split; [now apply Forall_rev|].
      apply Forall_forall. intros x Hx. apply in_flat_map in Hx. destruct Hx as (l & Hl & Hx).
      rewrite Forall_forall in B. specialize (B l Hl). rewrite Forall_forall in B. apply B.
      now apply in_rev.
  Qed.

  Lemma peval_coeffs (NC : nat) q (l : list F) y : wf 0 NC q -> (length l <= NC)%nat ->
    (forall k, coeff_at q k = nth k l 0) -> p_eval NC q y = peval l y.
  Proof.
    intros W Hl H. rewrite eval_ok by auto. rewrite (peval_nth_ge F l NC) by auto.
    apply fsum_ext. intros k Hk. now rewrite H.
  Qed.

  Lemma sx_full (n : nat) (body : prog F) (outs : list wref) (x : F) :
    let p := orchestrate body outs in
    (list_sum (map fst (sizes p)) <= n)%nat -> (list_sum (map snd (sizes p)) < 4 * n)%nat ->
    (x = 0 -> owned p [] <> None /\ hides_d body = true /\ forallb ref_hides outs = true) ->
    exists q, sx_eval n (4 * n) body outs x (floor_plan (sizes p)) = Some q /\ wf 0 (4 * n) q /\
      forall y, p_eval (4 * n) q y = s_spec n p x y.
  Proof.
    intros p Hg Hc Hx. destruct (feqb x 0) eqn:Ex.
    - apply feqb_true in Ex. destruct (Hx Ex) as (A & B & C). subst x. unfold sx_eval. rewrite feqb_refl.
      exists p_new. split; [reflexivity|]. split; [exact I|]. intros y.
      rewrite (peval_coeffs (4 * n) p_new [] y); [|exact I|cbn; lia|].
      + unfold p. rewrite s_spec_x0 by auto. reflexivity.
      + intros k. destruct k; reflexivity.
    - apply feqb_false in Ex. destruct (sx_ok F n body outs x Hg Hc Ex) as (q & E & W & C).
      exists q. split; [exact E|]. split; [exact W|]. intros y. unfold s_spec.
      apply peval_coeffs; auto. rewrite y_coeffs_length. fold p. lia.
  Qed.

  Lemma sxy_full (n : nat) (body : prog F) (outs : list wref) (x y : F) :
    let p := orchestrate body outs in
    (list_sum (map fst (sizes p)) <= n)%nat -> (list_sum (map snd (sizes p)) < 4 * n)%nat ->
    (x = 0 -> owned p [] <> None /\ hides_d body = true /\ forallb ref_hides outs = true) ->
    sxy_eval n (4 * n) body outs x y (floor_plan (sizes p)) = Some (s_spec n p x y).
  Proof.
    intros p Hg Hc Hx. destruct (feqb x 0) eqn:Ex.
    - apply feqb_true in Ex. destruct (Hx Ex) as (A & B & C). subst x. unfold sxy_eval. rewrite feqb_refl.
      unfold p. now rewrite s_spec_x0 by auto.
    - destruct (feqb y 0) eqn:Ey.
      + apply feqb_true in Ey. subst y. unfold sxy_eval. rewrite Ex, feqb_refl. unfold s_spec.
        rewrite peval_at_0. unfold p. rewrite y_coeffs_0. unfold one_val, placed. cbn [mono].
        f_equal. change (gate_off (sizes (orchestrate body outs)) 0) with 0%nat. unfold sqr.
        rewrite <- fpow_add. f_equal. lia.
      + apply feqb_false in Ex. apply feqb_false in Ey. now apply sxy_ok.
  Qed.

  Lemma object_ok x0 x1 x2 x3 yc onec hc n NC (body : prog F) outs :
    let p := orchestrate body outs in
    (circuit_object x0 x1 x2 x3 yc onec hc n NC body outs <> None <->
     (list_sum (map fst (sizes p)) <= n)%nat /\ (list_sum (map snd (sizes p)) < NC)%nat) /\
    forall segs, circuit_object x0 x1 x2 x3 yc onec hc n NC body outs = Some segs ->
      object_plan segs = floor_plan (sizes p).
  Proof.
    intros p. destruct (metrics_ok F x0 x1 x2 x3 yc onec hc body outs) as (segs & E & M). fold p in E, M.
    unfold circuit_object. rewrite E.
    destruct (Nat.leb_spec NC (list_sum (map snd (sizes p)))), (Nat.ltb_spec n (list_sum (map fst (sizes p))));
      split; try (split; [congruence|lia]); try congruence; try (split; [lia|congruence]).
    intros segs' [= <-]. unfold object_plan. change (floor_plan (map (CircProofs.cnt F) segs) = floor_plan (sizes p)).
    now rewrite M.
  Qed.
End SP.
