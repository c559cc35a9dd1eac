(** The revdot identity characterises satisfied traces. *)
From Coq Require Import List Arith Lia Bool Ring Field.
From Verif Require Import FieldDef ArithModel ArithSpec ArithProofs FFTModel FFTProofs SparseModel SparseSpec SparseProofs SparseProofs2
  TModel TProofs CircModel SyModel TraceModel ClaimModel CircSpec CircProofs CircProofs2 SyProofs SyProofs2.
Import ListNotations.

Section SatP.
  Variable F : Field.
  Add Field FFsat : (f_theory F).
  Open Scope f_scope.

  (** ** k(Y) *)
  Lemma ky_fold y : forall (l : list F) (acc : option F),
    horner_finish_ky y (fold_left (horner_write y) l acc) =
    peval (1 :: rev l) y + match acc with Some r => r * y ^ (S (length l)) | None => 0 end.
  Proof.
    induction l as [|v l IH]; intros acc; cbn [fold_left].
    - unfold horner_finish_ky, horner_write, horner_finish. destruct acc; cbn; ring.
    - rewrite IH. cbn [peval rev]. rewrite peval_app, rev_length. cbn [peval length fpow].
      destruct acc; cbn [horner_write]; ring.
  Qed.
  Lemma ky_ok (outputs : list F) y : ky_eval outputs y = peval (1 :: rev outputs) y.
  Proof. unfold ky_eval. rewrite ky_fold. ring. Qed.

  (** ** the linear part *)
  Lemma y_coeffs_orch (val : nat -> kind -> nat -> F) body outs :
    let r := sem val body 0 1 1 None (system_wires val) in
    y_coeffs val (orchestrate body outs)
    = one_val val :: rev (map (lookup (one_val val) (sm_env r)) outs) ++ rev (sm_own r) ++ flat_map (@rev F) (sm_subs r).
  Proof.
    intros r. unfold y_coeffs, cons_vals, orchestrate. cbn [sem app].
    change [val 0%nat KA 0%nat; val 0%nat KB 0%nat; val 0%nat KC 0%nat; val 0%nat KD 0%nat] with (system_wires val).
    destruct (sem_app F val body (enforce_outputs outs) 0 1 1 None (system_wires val)) as (g' & av' & E).
    rewrite E. fold r. cbn zeta. cbn [sm_own sm_subs flat_map].
    destruct (sem_enforce_outputs F val outs 0 (1 + length (sm_subs r)) g' av' (sm_env r)) as [E1 E2].
    rewrite E1, E2, app_nil_r. rewrite !rev_app_distr. cbn [rev app]. now rewrite <- app_assoc.
  Qed.

  Lemma nth_all_zero (l : list F) : (forall i, nth i l 0 = 0) -> Forall (fun v => v = 0) l.
  Proof.
    intros H. apply Forall_forall. intros x Hx. apply (In_nth _ _ 0) in Hx. destruct Hx as (i & _ & <-). auto.
  Qed.
  Lemma all_zero_nth (l : list F) i : Forall (fun v => v = 0) l -> nth i l 0 = 0.
  Proof.
    intros H. destruct (Nat.lt_ge_cases i (length l)); [|now apply nth_overflow].
    rewrite Forall_forall in H. apply H. now apply nth_In.
  Qed.
  Lemma flat_rev_zero (ls : list (list F)) :
    Forall (fun v => v = 0) (flat_map (@rev F) ls) <-> Forall (Forall (fun v => v = 0)) ls.
  Proof.
    induction ls as [|l ls IH]; cbn [flat_map]; [split; constructor|].
    rewrite Forall_app, IH. split.
    - intros [A B]. constructor; auto. apply Forall_rev in A. now rewrite rev_involutive in A.
    - intros H. inversion H; subst. split; auto. now apply Forall_rev.
  Qed.

  Lemma linear_iff (val : nat -> kind -> nat -> F) body outs outputs : length outputs = length outs ->
    (linear_ok val body outs outputs <->
     forall i, nth i (y_coeffs val (orchestrate body outs)) 0 = nth i (1 :: rev outputs) 0).
  Proof.
    intros Hl. rewrite y_coeffs_orch. unfold linear_ok.
    set (r := sem val body 0 1 1 None (system_wires val)).
    set (o := map (lookup (one_val val) (sm_env r)) outs).
    assert (Ho : length o = length outputs) by (unfold o; now rewrite map_length).
    split.
    - intros (A & B & -> & C) i. destruct i as [|i]; [exact C|]. cbn [nth].
      destruct (Nat.lt_ge_cases i (length (rev outputs))) as [Hi|Hi].
      + now rewrite app_nth1.
      + rewrite app_nth2 by lia. rewrite (nth_overflow (rev outputs)) by lia. apply all_zero_nth.
        apply Forall_app. split; [now apply Forall_rev|]. now apply flat_rev_zero.
    - intros H.
      assert (H1 : Forall (fun v => v = 0) (rev (sm_own r) ++ flat_map (@rev F) (sm_subs r))).
      { apply nth_all_zero. intros i. specialize (H (S (length (rev o) + i))). cbn [nth] in H.
        rewrite app_nth2 in H by lia. replace (length (rev o) + i - length (rev o))%nat with i in H by lia.
        rewrite H. apply nth_overflow. rewrite !rev_length in *. lia. }
      apply Forall_app in H1. destruct H1 as [H1 H2].
      repeat split.
      + apply Forall_rev in H1. now rewrite rev_involutive in H1.
      + now apply flat_rev_zero.
      + apply (f_equal (@rev F)) || idtac. rewrite <- (rev_involutive o), <- (rev_involutive outputs). f_equal.
        apply nth_ext with (d := 0) (d' := 0); [rewrite !rev_length; auto|]. intros i Hi.
        specialize (H (S i)). cbn [nth] in H. now rewrite app_nth1 in H.
      + exact (H 0%nat).
  Qed.

  (** ** the wiring polynomial against a trace *)
  Lemma sy_revdot (n : nat) body outs (y : F) (a b c d : list F) r sy :
    let p := orchestrate body outs in
    (list_sum (map fst (sizes p)) <= n)%nat -> (list_sum (map snd (sizes p)) < 4 * n)%nat -> owned p [] <> None ->
    (length a <= n)%nat -> (length b <= n)%nat -> (length c <= n)%nat -> (length d <= n)%nat ->
    trace_build (4 * n) n a b c d = Some r ->
    sy_eval n (4 * n) body outs y (floor_plan (sizes p)) = Some sy ->
    wf 0 (4 * n) sy /\ p_revdot (4 * n) r sy = peval (y_coeffs (placed (sizes p) (columns a b c d)) p) y.
  Proof.
    intros p Hg Hc Ho La Lb Lc Ld Er Es.
    destruct (trace_build_ok F n a b c d) as (r' & Er' & Wr & Cr); auto. rewrite Er' in Er. injection Er as ->.
    assert (X : forall a' b' c' d', (length a' <= n)%nat -> (length b' <= n)%nat -> (length c' <= n)%nat -> (length d' <= n)%nat ->
      wiring_build (4 * n) n a' b' c' d' = Some sy ->
      wf 0 (4 * n) sy /\ p_revdot (4 * n) r sy =
       fsum n (fun i => nth i a 0 * nth i a' 0 + nth i b 0 * nth i b' 0 + nth i c 0 * nth i c' 0 + nth i d 0 * nth i d' 0)).
    { intros a' b' c' d' H1 H2 H3 H4 E. destruct (wiring_build_ok F n a' b' c' d') as (q & Eq & W & C); auto.
      rewrite Eq in E. injection E as ->. split; auto. rewrite revdot_ok by auto. rewrite <- dual_sum.
      apply fsum_ext. intros k Hk. now rewrite Cr, C. }
    destruct (feqb y 0) eqn:Ey.
    - apply feqb_true in Ey. subst y. unfold sy_eval in Es. rewrite feqb_refl in Es.
      assert (Hn : (1 <= n)%nat) by lia.
      destruct (X [] [1] [] []) as [W Q]; try (cbn; lia); auto. split; auto. rewrite Q.
      rewrite peval_at_0. unfold p. rewrite y_coeffs_0. unfold one_val, placed. cbn [columns].
      change (gate_off (sizes (orchestrate body outs)) 0) with 0%nat.
      rewrite (fsum_pad F 1 n); [|lia|].
      + cbn [fsum nth Nat.add]. ring.
      + intros i Hi. rewrite (nth_overflow [1]) by (cbn; lia). destruct i; cbn [nth]; ring.
    - apply feqb_false in Ey.
      destruct (sy_bufs F n body outs y Hg Hc Ey Ho) as (a' & b' & c' & d' & E & La' & Lb' & Lc' & Ld' & Hv).
      fold p in E, La', Lb', Lc', Ld', Hv. rewrite E in Es.
      destruct (X a' b' c' d') as [W Q]; try lia; auto. split; auto. rewrite Q, <- Hv.
      unfold buf. rewrite <- !fsum_add.
      rewrite (fsum_pad F (list_sum (map fst (sizes p))) n); [|exact Hg|].
      + apply fsum_ext. intros i Hi. cbn [columns]. ring.
      + intros i Hi. rewrite (nth_overflow a'), (nth_overflow b'), (nth_overflow c'), (nth_overflow d') by lia. ring.
  Qed.

  Lemma claim_ok (n : nat) body outs (y z : F) (a b c d : list F) r sy :
    let p := orchestrate body outs in
    (list_sum (map fst (sizes p)) <= n)%nat -> (list_sum (map snd (sizes p)) < 4 * n)%nat -> owned p [] <> None ->
    (length a <= n)%nat -> (length b <= n)%nat -> (length c <= n)%nat -> (length d <= n)%nat ->
    trace_build (4 * n) n a b c d = Some r ->
    sy_eval n (4 * n) body outs y (floor_plan (sizes p)) = Some sy ->
    exists bp, circuit_claim_b n (4 * n) z r sy = Some bp /\ wf 0 (4 * n) bp /\
      p_revdot (4 * n) r bp = gate_poly F n a b c d z + peval (y_coeffs (placed (sizes p) (columns a b c d)) p) y.
  Proof.
    intros p Hg Hc Ho La Lb Lc Ld Er Es.
    destruct (sy_revdot n body outs y a b c d r sy Hg Hc Ho La Lb Lc Ld Er Es) as [Ws Rs]. fold p in Rs.
    destruct (trace_build_ok F n a b c d) as (r' & Er' & Wr & Cr); auto. rewrite Er' in Er. injection Er as ->.
    destruct (t_z_ok F n z) as (tz & Et & Wt & Ct).
    destruct (dilate_ok F (4 * n) r z Wr) as [Wd Cd].
    destruct (add_ok F (4 * n) _ _ Wd Ws) as (b1 & E1 & W1 & C1).
    destruct (add_ok F (4 * n) _ _ W1 Wt) as (b2 & E2 & W2 & C2).
    destruct (add_ok F (4 * n) _ _ Wd Wt) as (g & Eg & Wg & Cg).
    unfold circuit_claim_b. rewrite E1, Et, E2. exists b2. split; [reflexivity|]. split; [exact W2|].
    rewrite <- Rs. rewrite <- (gate_identity F n a b c d r z (p_dilate z r) tz g) by auto.
    rewrite !revdot_ok by auto. rewrite <- fsum_add. apply fsum_ext. intros k Hk.
    rewrite C2, C1, Cg. ring.
  Qed.

  (** ** from identities at many points to satisfaction *)
  Lemma gate_poly_const n (a b c d : list F) zs e : NoDup zs -> (4 * n <= length zs)%nat -> (0 < n)%nat ->
    (forall z, In z zs -> gate_poly F n a b c d z = e) -> gates_ok F n a b c d /\ e = 0.
  Proof.
    intros Hnd Hl Hn H.
    assert (U : forall i, nth i (gate_coeffs F n a b c d) 0 = nth i [e] 0).
    { apply (poly_unique F) with (rs := zs); auto.
      - unfold gate_coeffs. rewrite map_length, seq_length. lia.
      - cbn. lia.
      - intros z Hz. rewrite <- gate_poly_peval. cbn [peval]. rewrite H by auto. ring. }
    assert (E0 : nth 0 (gate_coeffs F n a b c d) 0 = nth 0 c 0 * nth 0 d 0).
    { unfold gate_coeffs. rewrite nth_map_seq0 by lia. destruct (Nat.ltb_spec 0 n); [reflexivity|lia]. }
    assert (E1 : nth (4 * n - 1) (gate_coeffs F n a b c d) 0 = nth 0 c 0 * nth 0 d 0).
    { unfold gate_coeffs. rewrite nth_map_seq0 by lia.
      repeat match goal with |- context [?a <? ?b] => destruct (Nat.ltb_spec a b); try lia end.
      replace (4 * n - 1 - (4 * n - 1))%nat with 0%nat by lia. reflexivity. }
    assert (He : e = 0).
    { rewrite <- E1 in E0. rewrite !U in E0. rewrite (nth_overflow [e] (n := (4 * n - 1)%nat)) in E0 by (cbn; lia). exact E0. }
    split; auto. subst e. apply (gate_poly_zero_iff F n a b c d zs Hnd Hl). exact H.
  Qed.

  Lemma ky_sum (outputs : list F) y :
    ky_eval outputs y = 1 + fsum (length outputs) (fun i => nth (length outputs - 1 - i) outputs 0 * y ^ (S i)).
  Proof.
    rewrite ky_ok. cbn [peval]. rewrite peval_fsum, rev_length. f_equal. rewrite <- fsum_scale.
    apply fsum_ext. intros i Hi. rewrite rev_nth by lia. replace (length outputs - S i)%nat with (length outputs - 1 - i)%nat by lia.
    cbn [fpow]. ring.
  Qed.

  (** revdot(r, r(zX) + s(X,y) + t(X,z)) = k(y), as the claim builder computes it *)
  Definition passes n (r : list (nat * list F)) (body : prog F) (outs : list wref) (outputs : list F) (y z : F) : Prop :=
    exists sy bp, sy_eval n (4 * n) body outs y (floor_plan (sizes (orchestrate body outs))) = Some sy /\
      circuit_claim_b n (4 * n) z r sy = Some bp /\
      p_revdot (4 * n) r bp = ky_eval outputs y.

  Lemma peval_nth_ext (p q : list F) x : (forall i, nth i p 0 = nth i q 0) -> peval p x = peval q x.
  Proof.
    intros H. rewrite (peval_nth_ge F p (length p + length q) x), (peval_nth_ge F q (length p + length q) x) by lia.
    apply fsum_ext. intros i _. now rewrite H.
  Qed.
  Lemma outs_lt_cons (body : prog F) outs : (length outs < list_sum (map snd (sizes (orchestrate body outs))))%nat.
  Proof.
    assert (E : (length outs < own_cons (orchestrate body outs))%nat).
    { unfold orchestrate. cbn [own_cons]. rewrite own_cons_app.
      assert (length outs < own_cons (enforce_outputs (F := F) outs))%nat by (induction outs; cbn in *; lia). lia. }
    unfold sizes. cbn [map snd]. change (length outs < own_cons (orchestrate body outs) + list_sum (map snd (sub_sizes (orchestrate body outs))))%nat. lia.
  Qed.

  Section CS.
    Variables (n : nat) (body : prog F) (outs : list wref) (outputs : list F) (a b c d : list F) (r : list (nat * list F)).
    Let p := orchestrate body outs.
    Hypothesis Hg : (list_sum (map fst (sizes p)) <= n)%nat.
    Hypothesis Hc : (list_sum (map snd (sizes p)) < 4 * n)%nat.
    Hypothesis Ho : owned p [] <> None.
    Hypothesis La : (length a <= n)%nat.
    Hypothesis Lb : (length b <= n)%nat.
    Hypothesis Lc : (length c <= n)%nat.
    Hypothesis Ld : (length d <= n)%nat.
    Hypothesis Hr : trace_build (4 * n) n a b c d = Some r.
    Hypothesis Hlen : length outputs = length outs.

    Lemma sat_complete : satisfied n a b c d body outs outputs -> forall y z, passes n r body outs outputs y z.
    Proof.
      intros [Sg Sl] y z.
      destruct (sy_ok F n body outs y Hg Hc Ho) as (sy & Esy & _).
      destruct (claim_ok n body outs y z a b c d r sy Hg Hc Ho La Lb Lc Ld Hr Esy) as (bp & Eb & _ & V).
      exists sy, bp. split; [exact Esy|]. split; [exact Eb|]. rewrite V, ky_ok.
      assert (G0 : gate_poly F n a b c d z = 0).
      { unfold gate_poly. apply fsum_zero. intros i Hi. destruct (Sg i Hi) as [E1 E2]. rewrite E1, E2. ring. }
      rewrite G0. rewrite (peval_nth_ext (y_coeffs (placed (sizes (orchestrate body outs)) (columns a b c d)) (orchestrate body outs))
                             (1 :: rev outputs)); [ring|].
      now apply linear_iff.
    Qed.

    Lemma sat_sound ys : NoDup ys -> (4 * n <= length ys)%nat ->
      (forall y, In y ys -> exists zs, NoDup zs /\ (4 * n <= length zs)%nat /\
         forall z, In z zs -> passes n r body outs outputs y z) ->
      satisfied n a b c d body outs outputs.
    Proof.
      intros Hnd Hys Hp. assert (Hn : (0 < n)%nat) by lia.
      set (Y := y_coeffs (placed (sizes p) (columns a b c d)) p).
      assert (K : forall y, In y ys -> gates_ok F n a b c d /\ peval Y y = peval (1 :: rev outputs) y).
      { intros y Hy. destruct (Hp y Hy) as (zs & Hz & Lz & Pz).
        destruct (gate_poly_const n a b c d zs (ky_eval outputs y - peval Y y) Hz Lz Hn) as [G E].
        - intros z Hzin. destruct (Pz z Hzin) as (sy & bp & Esy & Eb & V).
          destruct (claim_ok n body outs y z a b c d r sy Hg Hc Ho La Lb Lc Ld Hr Esy) as (bp' & Eb' & _ & V').
          rewrite Eb in Eb'. injection Eb' as <-. rewrite V' in V. fold p Y in V. rewrite <- V. ring.
        - split; [exact G|]. rewrite <- ky_ok. symmetry. now apply fsub_eq_0. }
      destruct ys as [|y0 ys']; [cbn in Hys; lia|].
      split; [exact (proj1 (K y0 (or_introl eq_refl)))|].
      apply linear_iff; [exact Hlen|]. fold p. fold Y.
      apply (poly_unique F Y (1 :: rev outputs) (y0 :: ys') Hnd).
      - unfold Y. rewrite y_coeffs_length. lia.
      - cbn [length]. rewrite rev_length, Hlen. assert (X := outs_lt_cons body outs). fold p in X. cbn [length] in Hys. lia.
      - intros y Hy. now apply K.
    Qed.
  End CS.
End SatP.
