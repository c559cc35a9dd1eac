(** Bonding circuits: the validator and the stripped object. *)
From Coq Require Import List Arith NArith Bool Lia Permutation Field.
From Verif Require Import FieldDef ModDef ArithModel ArithSpec ArithProofs FFTModel FFTProofs SparseModel SparseSpec SparseProofs SparseProofs2
  CircModel SyModel TraceModel CircSpec CircProofs CircProofs2 SProofs SyProofs2 TraceProofs SatProofs RegModel RegSpec RegProofs RegProofs2
  StageModel StageSpec StageProofs StageProofs2.
Import ListNotations.
Local Open Scope nat_scope.

Section BondP.
  Variable F : Field.
  Add Field FFbd : (f_theory F).
  Open Scope f_scope.

  (** ** the validator *)
  Lemma is_one_ref env r : is_one env r = one_ref env r.
  Proof. destruct r; reflexivity. Qed.
  Lemma lc_one_ok env (lc : list (lcall F wref)) : lc_one env lc = false <-> Forall (fun r => one_ref env r = false) (lc_refs lc).
  Proof.
    unfold lc_one, lc_refs. induction lc as [|op lc IH]; cbn [existsb flat_map]; [split; auto|].
    rewrite orb_false_iff, Forall_app, IH. apply and_iff_compat_r.
    assert (S1 : forall w, is_one env w = false <-> Forall (fun r => one_ref env r = false) [w]).
    { intros w. rewrite is_one_ref. split; [intros H; constructor; [exact H|constructor]|intros H; inversion H; auto]. }
    destruct op as [w c|c|w|w|ts]; auto.
    - split; auto.
    - induction ts as [|t ts IHt]; cbn [existsb map]; [split; auto|]. rewrite orb_false_iff, IHt, is_one_ref. split.
      + intros [A B]. constructor; auto.
      + intros H. inversion H; auto.
  Qed.
  Lemma bv_err (p : prog F) : forall env, snd (bv_run p env true) = true.
  Proof.
    induction p as [|a b c d k IH|a b c k IH|v k IH|lc k IH|lc k IH|w k IH|i k IH|kn ins body IHb outs k IHk]; intros env; cbn [bv_run]; auto.
    specialize (IHb (map (is_one env) ins)). destruct (bv_run body (map (is_one env) ins) true) as [cenv e]. cbn in IHb. subst e. apply IHk.
  Qed.
  Lemma bv_ok (p : prog F) : forall env,
    (snd (bv_run p env false) = false -> gate_free env p (fst (bv_run p env false))) /\
    (forall o, gate_free env p o -> bv_run p env false = (o, false)).
  Proof.
    induction p as [|a b c d k IH|a b c k IH|v k IH|lc k IH|lc k IH|w k IH|i k IH|kn ins body IHb outs k IHk]; intros env; cbn [bv_run].
    - split; [constructor|]. intros o H. inversion H; subst; auto.
    - rewrite bv_err. split; [discriminate|]. intros o H. inversion H.
    - rewrite bv_err. split; [discriminate|]. intros o H. inversion H.
    - destruct (IH (env ++ [false])) as [A B]. split; [intros; constructor; auto|]. intros o H. inversion H; subst. auto.
    - cbn [orb]. destruct (lc_one env lc) eqn:E.
      + rewrite bv_err. split; [discriminate|]. intros o H. inversion H; subst. apply lc_one_ok in H3. congruence.
      + apply lc_one_ok in E. destruct (IH (env ++ [false])) as [A B]. split; [intros; constructor; auto|]. intros o H. inversion H; subst. auto.
    - cbn [orb]. destruct (lc_one env lc) eqn:E.
      + rewrite bv_err. split; [discriminate|]. intros o H. inversion H; subst. apply lc_one_ok in H3. congruence.
      + apply lc_one_ok in E. destruct (IH env) as [A B]. split; [intros; constructor; auto|]. intros o H. inversion H; subst. auto.
    - rewrite is_one_ref. destruct (IH (env ++ [one_ref env w])) as [A B]. split; [intros; constructor; auto|]. intros o H. inversion H; subst. auto.
    - destruct (IH env) as [A B]. split; [intros; constructor; auto|]. intros o H. inversion H; subst. auto.
    - assert (M : forall e l, map (is_one e) l = map (one_ref e) l) by (intros; apply map_ext; intros; apply is_one_ref). rewrite !M.
      destruct (IHb (map (one_ref env) ins)) as [A B]. destruct (bv_run body (map (one_ref env) ins) false) as [cenv e] eqn:Eb.
      rewrite M. cbn [fst snd] in *. destruct e.
      + rewrite bv_err. split; [discriminate|]. intros o H. inversion H; subst. match goal with X : gate_free _ body _ |- _ => specialize (B _ X) end. discriminate.
      + specialize (A eq_refl). destruct (IHk (env ++ map (one_ref cenv) outs)) as [C D]. split.
        * intros H. econstructor; eauto.
        * intros o H. inversion H; subst. match goal with X : gate_free _ body ?o' |- _ => specialize (B _ X) end. injection B as <-. auto.
  Qed.
  Lemma accepts_iff (body : prog F) : bv_accepts body = true <-> exists o, gate_free [false; false; false; false] body o.
  Proof.
    unfold bv_accepts. destruct (bv_ok body [false; false; false; false]) as [A B]. split.
    - intros H. apply negb_true_iff in H. eexists. apply A. exact H.
    - intros [o H]. rewrite (B o H). reflexivity.
  Qed.

  (** ** what the constraints depend on *)
  Lemma one_ref_taint (rest : list bool) r : ref_above r = true -> one_ref ([true; true; true; true] ++ rest) r = one_ref ([false; false; false; false] ++ rest) r.
  Proof. destruct r as [|i]; [reflexivity|]. cbn [ref_above one_ref]. intros H. apply Nat.leb_le in H. do 4 (destruct i as [|i]; [lia|]). reflexivity. Qed.
  Lemma gate_free_taint (p : prog F) : forall rest o, hides_system p = true -> gate_free ([false; false; false; false] ++ rest) p o ->
    exists o', gate_free ([true; true; true; true] ++ rest) p o'.
  Proof.
    assert (L : forall rest lc, forallb ref_above (lc_refs (F := F) lc) = true ->
      Forall (fun r => one_ref ([false; false; false; false] ++ rest) r = false) (lc_refs lc) ->
      Forall (fun r => one_ref ([true; true; true; true] ++ rest) r = false) (lc_refs lc)).
    { intros rest lc H. rewrite forallb_forall in H. rewrite !Forall_forall. intros H1 r Hr. rewrite one_ref_taint by auto. auto. }
    induction p as [|a b c d k IH|a b c k IH|v k IH|lc k IH|lc k IH|w k IH|i k IH|kn ins body IHb outs k IHk]; intros rest o H G; cbn [hides_system] in H; inversion G; subst;
      try (apply andb_true_iff in H; destruct H as [Hx H]).
    all: try match goal with X : gate_free _ ?k _, IH : forall rest o, hides_system ?k = true -> _ |- _ => rewrite <- ?app_assoc in X; destruct (IH _ _ H X) as [o2 Y] end.
    - eexists. constructor.
    - exists o2. constructor. rewrite <- app_assoc. exact Y.
    - exists o2. constructor; [apply L; auto|]. rewrite <- app_assoc. exact Y.
    - exists o2. constructor; [apply L; auto|]. exact Y.
    - exists o2. constructor. rewrite <- app_assoc, one_ref_taint by auto. exact Y.
    - exists o2. constructor. exact Y.
    - exists o2. econstructor.
      + rewrite (map_ext_in _ (one_ref ([false; false; false; false] ++ rest))); [eassumption|].
        intros r Hr. apply one_ref_taint. rewrite forallb_forall in Hx. auto.
      + rewrite <- app_assoc. exact Y.
  Qed.

  Section Indep.
    Variables val val' : nat -> kind -> nat -> F.
    Hypothesis agree : forall s i, (s <> 0 \/ i <> 0)%nat -> val s KB i = val' s KB i /\ val s KD i = val' s KD i.
    Definition env_ok (ones : list bool) (env env' : list F) : Prop :=
      length env = length ones /\ length env' = length ones /\
      forall i, nth i ones true = false -> nth_error env i = nth_error env' i.
    Lemma env_ok_ref ones env env' r : env_ok ones env env' -> one_ref ones r = false ->
      lookup (one_val val) env r = lookup (one_val val') env' r.
    Proof.
      intros (L & L' & H) R. destruct r as [|i]; [discriminate|]. cbn in *. specialize (H i R).
      assert (Hi : (i < length ones)%nat) by (destruct (Nat.lt_ge_cases i (length ones)); auto; rewrite nth_overflow in R by auto; discriminate).
      rewrite (nth_error_nth' env (one_val val)) in H by lia. rewrite (nth_error_nth' env' (one_val val')) in H by lia. now injection H.
    Qed.
    Lemma env_ok_app ones env env' o e e' : env_ok ones env env' -> env_ok o e e' -> env_ok (ones ++ o) (env ++ e) (env' ++ e').
    Proof.
      intros (L & L' & H) (M & M' & H'). unfold env_ok. rewrite !app_length. split; [lia|]. split; [lia|]. intros i Hi.
      destruct (Nat.lt_ge_cases i (length ones)) as [Li|Li].
      - rewrite !nth_error_app1 by lia. apply H. now rewrite app_nth1 in Hi by lia.
      - rewrite !nth_error_app2 by lia. rewrite L, L'. apply H'. now rewrite app_nth2 in Hi by lia.
    Qed.
    Lemma env_ok_one b v v' : (b = false -> v = v') -> env_ok [b] [v] [v'].
    Proof. intros H. repeat split. intros [|i] Hi; cbn in *; [f_equal; auto|destruct i; discriminate]. Qed.
    Lemma env_ok_map ones env env' rs : env_ok ones env env' ->
      env_ok (map (one_ref ones) rs) (map (lookup (one_val val) env) rs) (map (lookup (one_val val') env') rs).
    Proof.
      intros H. induction rs as [|r rs IH]; [repeat split; intros [|i]; discriminate|]. cbn [map].
      apply (env_ok_app [_] [_] [_]); auto. apply env_ok_one. intros; eapply env_ok_ref; eauto.
    Qed.
    Lemma lc_indep ones env env' (lc : list (lcall F wref)) : env_ok ones env env' -> Forall (fun r => one_ref ones r = false) (lc_refs lc) ->
      lc_val val env lc = lc_val val' env' lc.
    Proof.
      intros He Hl. unfold lc_val, lin_spec.
      assert (Q : forall r, In r (lc_refs lc) -> lookup (one_val val) env r = lookup (one_val val') env' r).
      { intros r Hr. rewrite Forall_forall in Hl. eapply env_ok_ref; eauto. }
      apply fsum_ext. intros i Hi. f_equal. destruct (nth_error lc i) as [op|] eqn:E; [|reflexivity].
      apply nth_error_In in E.
      assert (Q' : forall r, In r (match op with LTerm w _ | LAdd w | LSub w => [w] | LGain _ => [] | LExtend ts => map fst ts end) ->
        lookup (one_val val) env r = lookup (one_val val') env' r).
      { intros r Hr. apply Q. unfold lc_refs. apply in_flat_map. exists op. auto. }
      destruct op as [w c|c|w|w|ts]; cbn [call_sum]; try (rewrite Q' by (left; reflexivity)); auto.
      f_equal. apply map_ext_in. intros t Ht. rewrite Q' by (apply in_map; exact Ht). reflexivity.
    Qed.

    Lemma sem_indep (p : prog F) : forall ones o sid nxt g av av' env env', gate_free ones p o -> env_ok ones env env' ->
      (1 <= nxt)%nat -> (sid <> 0 \/ 1 <= g)%nat -> av = av' ->
      let r := sem val p sid nxt g av env in let r' := sem val' p sid nxt g av' env' in
      env_ok o (sm_env r) (sm_env r') /\ sm_own r = sm_own r' /\ sm_subs r = sm_subs r'.
    Proof.
      induction p as [|a b c d k IH|a b c k IH|v k IH|lc k IH|lc k IH|w k IH|i k IH|kn ins body IHb outs k IHk];
        intros ones o sid nxt g av av' env env' G He Hn Hg <-; inversion G; subst; cbn [sem].
      - auto.
      - destruct av as [x|].
        + eapply IH; eauto. apply env_ok_app; auto. now apply env_ok_one.
        + destruct (agree sid g ltac:(lia)) as [B D]. rewrite <- D. eapply IH; eauto; [|lia]. apply env_ok_app; auto. now apply env_ok_one.
      - eapply IH; eauto. apply env_ok_app; auto. apply env_ok_one. intros _. eapply lc_indep; eauto.
      - destruct (IH ones o sid nxt g av av env env') as (A & B & C); auto. cbn [sm_env sm_own sm_subs]. split; [exact A|]. split; [|exact C].
        f_equal; auto. eapply lc_indep; eauto.
      - eapply IH; eauto. apply env_ok_app; auto. apply env_ok_one. intros. eapply env_ok_ref; eauto.
      - eapply IH; eauto.
      - match goal with X : gate_free _ body ?o', Y : gate_free _ k _ |- _ =>
          destruct (IHb _ _ nxt (S nxt) 0%nat None None _ _ X (env_ok_map _ _ _ ins He) ltac:(lia) ltac:(left; lia) eq_refl) as (A & B & C);
          rewrite <- C;
          destruct (IHk _ _ sid (S nxt + length (sm_subs (sem val body nxt (S nxt) 0 None (map (lookup (one_val val) env) ins))))%nat g av av _ _ Y
            (env_ok_app _ _ _ _ _ _ He (env_ok_map _ _ _ outs A)) ltac:(lia) Hg eq_refl) as (A' & B' & C') end.
        cbn [sm_env sm_own sm_subs]. split; [exact A'|]. split; [exact B'|]. rewrite B. f_equal. f_equal. exact C'.
    Qed.
    Lemma accepted_indep (body : prog F) : bv_accepts body = true -> hides_system body = true ->
      let r := sem val body 0 1 1 None (system_wires val) in let r' := sem val' body 0 1 1 None (system_wires val') in
      sm_own r = sm_own r' /\ sm_subs r = sm_subs r'.
    Proof.
      intros A H. apply accepts_iff in A. destruct A as [o G]. rewrite <- (app_nil_r [false; false; false; false]) in G.
      destruct (gate_free_taint body [] o H G) as [o' G']. rewrite app_nil_r in G'.
      destruct (sem_indep body _ _ 0%nat 1%nat 1%nat None None (system_wires val) (system_wires val') G') as (_ & B & C); auto.
      repeat split. intros i Hi. do 4 (destruct i as [|i]; [discriminate|]). destruct i; discriminate.
    Qed.
  End Indep.

  (** ** the stripped object *)
  Lemma first_coeff nc (q : poly F) : (0 < nc)%nat -> wf 0 nc q -> snd (ci_next q (iter_coeffs nc q)) = Some (coeff_at q 0).
  Proof.
    intros Hn W. pose proof (iter_all_ok F nc q [true] W) as H. cbn [run_iter deque_run] in H.
    destruct (ci_next q (iter_coeffs nc q)) as [it r]. cbn [snd]. unfold dense in H. destruct nc as [|nc]; [lia|].
    cbn [seq map deque_step] in H. now injection H.
  Qed.
  Lemma stripped_is lg (o : cobj F) s : obj_is lg o s -> (forall x, s x 0 = x ^ (2 * 2 ^ lg)) ->
    obj_is lg (stripped lg o) (fun x y => s x y - x ^ (2 * 2 ^ lg)).
  Proof.
    intros H H0 x y. set (n := (2 ^ lg)%nat) in *. unfold obj_is in H. fold n in H.
    assert (Hn : (0 < n)%nat) by (pose proof (Nat.pow_nonzero 2 lg); lia).
    destruct (H x y) as (Exy & (q & Ex & W & V) & (q' & Ey & W' & V')).
    unfold stripped. cbn [ob_segs ob_sxy ob_sx ob_sy]. unfold rk_nc, rk_n. fold n.
    split; [rewrite Exy; reflexivity|]. split.
    - rewrite Ex. cbn [obind]. rewrite first_coeff by (auto; lia).
      destruct (from_coeffs_ok F (4 * n) [coeff_at q 0]) as (c & Ec & Wc & Cc & _); [cbn; lia|].
      destruct (sub_ok F (4 * n) q c W Wc) as (r & Er & Wr & Cr). exists r. cbn [obind]. rewrite Ec. cbn [obind].
      split; [exact Er|]. split; [exact Wr|].
      assert (Q0 : coeff_at q 0 = x ^ (2 * n)).
      { destruct (H x 0) as (_ & (q2 & Ex2 & _ & V2) & _). rewrite Ex in Ex2. injection Ex2 as <-. rewrite H0 in V2. rewrite <- V2.
        rewrite SparseProofs.eval_ok by auto. destruct (4 * n)%nat as [|m] eqn:E4; [lia|]. rewrite fsum_S_first. rewrite (fsum_zero F m).
        - cbn [fpow]. ring.
        - intros i Hi. rewrite fpow_zero by lia. ring. }
      rewrite SparseProofs.eval_ok by auto. rewrite <- V, SparseProofs.eval_ok, <- Q0 by auto.
      transitivity (fsum (4 * n) (fun k => coeff_at q k * y ^ k) - fsum (4 * n) (fun k => coeff_at c k * y ^ k)).
      + rewrite <- fsum_sub. apply fsum_ext. intros i Hi. rewrite Cr. ring.
      + f_equal. rewrite (fsum_single F (4 * n) 0); [rewrite Cc; cbn; ring|lia|]. intros i Hi Ni. rewrite Cc. destruct i as [|i]; [lia|]. cbn [nth]. destruct i; ring.
    - rewrite Ey. cbn [obind]. destruct (wiring_build_ok F n [] [1] [] []) as (c & Ec & Wc & Cc); try (cbn; lia).
      rewrite Ec. destruct (sub_ok F (4 * n) q' c W' Wc) as (r & Er & Wr & Cr). exists r. split; [exact Er|]. split; [exact Wr|].
      rewrite SparseProofs.eval_ok by auto. rewrite <- V', SparseProofs.eval_ok by auto.
      transitivity (fsum (4 * n) (fun k => coeff_at q' k * x ^ k) - fsum (4 * n) (fun k => coeff_at c k * x ^ k)).
      + rewrite <- fsum_sub. apply fsum_ext. intros i Hi. rewrite Cr. ring.
      + f_equal. rewrite (fsum_single F (4 * n) (2 * n)).
        * rewrite Cc. pose proof (trace_coeff_a F n [1] [] [] [] 0 Hn) as X. rewrite Nat.add_0_r in X. rewrite X. cbn [nth]. ring.
        * lia.
        * intros i Hi Ni. rewrite Cc. unfold trace_coeff.
          assert (Z : nth (i - 2 * n) [1] 0 = (0 : F) \/ (i < 2 * n)%nat).
          { destruct (Nat.lt_ge_cases i (2 * n)); auto. left. apply nth_overflow. cbn. lia. }
          destruct (i <? n)%nat; [destruct i; cbn; ring|]. destruct (Nat.ltb_spec i (2 * n)); [destruct (2 * n - 1 - i)%nat; cbn; ring|].
          destruct (i <? 3 * n)%nat; [destruct Z as [->|]; [ring|lia]|]. destruct (i <? 4 * n)%nat; [destruct (4 * n - 1 - i)%nat; cbn; ring|ring].
  Qed.
  Lemma s_spec_zero n (body : prog F) outs (x : F) : s_spec n (orchestrate body outs) x 0 = x ^ (2 * n).
  Proof.
    unfold s_spec. rewrite y_coeffs_orch. cbn [peval]. unfold one_val, placed, mono.
    change (gate_off (sizes (orchestrate body outs)) 0) with 0%nat. rewrite Nat.add_0_r. ring.
  Qed.

  (** ** the bonding claim *)
  Lemma bond_revdot x0 x1 x2 x3 yc onec hc lg (body wr : prog F) outs (o : cobj F) (a b c d : list F) r y :
    let n := (2 ^ lg)%nat in let full := prog_app body wr in let p := orchestrate full outs in
    bonding_object x0 x1 x2 x3 yc onec hc lg body wr outs = Some o -> owned p [] <> None ->
    (length a <= n)%nat -> (length b <= n)%nat -> (length c <= n)%nat -> (length d <= n)%nat ->
    trace_build (4 * n) n a b c d = Some r ->
    let R := sem (placed (sizes p) (columns a b c d)) full 0 1 1 None (system_wires (placed (sizes p) (columns a b c d))) in
    exists q, ob_sy F o y (floor_plan (ob_segs F o)) = Some q /\ wf 0 (4 * n) q /\
      p_revdot (4 * n) r q =
        y * peval (rev (map (lookup (nth 0 b 0) (sm_env R)) outs) ++ rev (sm_own R) ++ flat_map (@rev F) (sm_subs R)) y.
  Proof.
    intros n full p E O La Lb Lc Ld Er R. unfold bonding_object in E. destruct (bv_accepts body); [|discriminate].
    unfold prog_cobj in E. fold full in E.
    destruct (object_ok F x0 x1 x2 x3 yc onec hc (rk_n lg) (rk_nc lg) full outs) as [A B].
    destruct (circuit_object x0 x1 x2 x3 yc onec hc (rk_n lg) (rk_nc lg) full outs) as [segs|] eqn:C; [|discriminate].
    cbn [obind] in E. injection E as <-. destruct (proj1 A ltac:(discriminate)) as [G1 G2].
    specialize (B segs eq_refl). unfold object_plan in B. unfold stripped. cbn [ob_segs ob_sy]. rewrite B.
    unfold rk_nc, rk_n in *. fold n in G1, G2, A |- *. fold p.
    destruct (sy_ok F n full outs y G1 G2 O) as (q & Eq & W & _). fold p in Eq. rewrite Eq. cbn [obind].
    destruct (sy_revdot F n full outs y a b c d r q G1 G2 O La Lb Lc Ld Er Eq) as [_ V].
    assert (Hn : (0 < n)%nat) by (unfold n; pose proof (Nat.pow_nonzero 2 lg); lia).
    destruct (wiring_build_ok F n [] [1] [] []) as (c1 & Ec & Wc & Cc); try (cbn; lia). rewrite Ec.
    destruct (sub_ok F (4 * n) q c1 W Wc) as (q2 & E2 & W2 & C2). exists q2. split; [exact E2|]. split; [exact W2|].
    destruct (trace_build_ok F n a b c d) as (r' & Er' & Wr & Cr); auto. rewrite Er' in Er. injection Er as ->.
    assert (V1 : p_revdot (4 * n) r c1 = nth 0 b 0).
    { rewrite revdot_ok by auto. rewrite (fsum_ext F _ _ (fun k => trace_coeff F n a b c d k * trace_coeff F n [1] [] [] [] (4 * n - 1 - k))) by (intros k Hk; now rewrite Cr, Cc).
      rewrite dual_sum. rewrite (fsum_single F n 0); [cbn; ring|exact Hn|]. intros i Hi Ni. destruct i as [|i]; [lia|]. cbn [nth]. destruct i; ring. }
    transitivity (p_revdot (4 * n) r q - p_revdot (4 * n) r c1).
    { rewrite !revdot_ok, <- fsum_sub by auto. apply fsum_ext. intros i Hi. rewrite C2. ring. }
    rewrite V, V1. fold p. unfold p. rewrite y_coeffs_orch. fold p. fold R. cbn [peval].
    assert (O1 : one_val (placed (sizes p) (columns a b c d)) = nth 0 b 0) by reflexivity. rewrite O1. ring.
  Qed.
  Lemma bond_claim x0 x1 x2 x3 yc onec hc lg (body wr : prog F) outs (o : cobj F) (a b c d : list F) r ys :
    let n := (2 ^ lg)%nat in let full := prog_app body wr in let p := orchestrate full outs in
    bonding_object x0 x1 x2 x3 yc onec hc lg body wr outs = Some o -> owned p [] <> None ->
    (length a <= n)%nat -> (length b <= n)%nat -> (length c <= n)%nat -> (length d <= n)%nat ->
    trace_build (4 * n) n a b c d = Some r ->
    let R := sem (placed (sizes p) (columns a b c d)) full 0 1 1 None (system_wires (placed (sizes p) (columns a b c d))) in
    let ok := Forall (fun v => v = 0) (map (lookup (nth 0 b 0) (sm_env R)) outs) /\
              Forall (fun v => v = 0) (sm_own R) /\ Forall (Forall (fun v => v = 0)) (sm_subs R) in
    let claim y := exists q, ob_sy F o y (floor_plan (ob_segs F o)) = Some q /\ p_revdot (4 * n) r q = 0 in
    (ok -> forall y, claim y) /\
    (NoDup ys -> (4 * n <= length ys)%nat -> (forall y, In y ys -> claim y) -> ok).
  Proof.
    intros n full p E O La Lb Lc Ld Er R ok claim.
    pose proof (fun y => bond_revdot x0 x1 x2 x3 yc onec hc lg body wr outs o a b c d r y E O La Lb Lc Ld Er) as D. cbn zeta in D. fold n full p R in D.
    set (T := rev (map (lookup (nth 0 b 0) (sm_env R)) outs) ++ rev (sm_own R) ++ flat_map (@rev F) (sm_subs R)) in *.
    assert (OK : ok <-> Forall (fun v => v = 0) T).
    { unfold ok, T. rewrite !Forall_app, flat_rev_zero. split.
      - intros (A & B & C). split; [now apply Forall_rev|]. split; [now apply Forall_rev|exact C].
      - intros (A & B & C). apply Forall_rev in A. apply Forall_rev in B. rewrite rev_involutive in *. auto. }
    split.
    - intros K y. destruct (D y) as (q & Eq & _ & V). exists q. split; [exact Eq|]. rewrite V. apply OK in K.
      assert (Z : forall l : list F, Forall (fun v => v = 0) l -> peval l y = 0).
      { induction 1 as [|v l -> _ IH]; cbn [peval]; [reflexivity|rewrite IH; ring]. }
      rewrite Z by exact K. ring.
    - intros ND L H. apply OK. 
      assert (LT : (length T < 4 * n)%nat).
      { pose proof (y_coeffs_orch F (placed (sizes p) (columns a b c d)) full outs) as Y. cbn zeta in Y. fold p R in Y.
        pose proof (y_coeffs_length F (placed (sizes p) (columns a b c d)) p) as YL. rewrite Y in YL.
        assert (G2 : (list_sum (map snd (sizes p)) < 4 * n)%nat).
        { unfold bonding_object in E. destruct (bv_accepts body); [|discriminate]. unfold prog_cobj in E. fold full in E.
          destruct (object_ok F x0 x1 x2 x3 yc onec hc (rk_n lg) (rk_nc lg) full outs) as [A _].
          destruct (circuit_object x0 x1 x2 x3 yc onec hc (rk_n lg) (rk_nc lg) full outs) as [segs|]; [|discriminate].
          apply (proj1 A ltac:(discriminate)). }
        change (S (length T) = list_sum (map snd (sizes p))) in YL. lia. }
      assert (U : forall i, nth i (0 :: T) 0 = nth i [] (0 : F)).
      { apply (poly_unique F) with (rs := ys); auto; [cbn [length]; lia|cbn; lia|]. intros y Hy. cbn [peval].
        destruct (H y Hy) as (q & Eq & V). destruct (D y) as (q' & Eq' & _ & V'). rewrite Eq in Eq'. injection Eq' as <-. rewrite <- V', V. ring. }
      apply nth_all_zero. intros i. specialize (U (S i)). cbn [nth] in U. exact U.
  Qed.
End BondP.
