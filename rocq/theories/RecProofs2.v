(** The recursion circuits: instance polynomials, collapse, denominators, transcript. *)
From Coq Require Import List Arith NArith Bool Lia Ring Field.
From Verif Require Import FieldDef ArithModel GadgetModel GadgetSpec GadgetProofs Runs PointSpec PointProofs EndoSpec EndoProofs TxzProofs TProofs
  SpongeModel SpongeSpec SpongeProofs FoldModel FoldSpec FoldProofs2 PcdModel PcdSpec PcdProofs2 RecModel RecSpec RecProofs.
Import ListNotations.
Open Scope f_scope.
Local Open Scope nat_scope.

Section Blocks.
  Variable F : Field.
  Add Field FFrk : (f_theory F).
  Open Scope f_scope.
  Variable wit : bool.
  Local Notation e := (@el F wit).

  Lemma uout_write_of (u : uvals F) : uout_write F F (uout_of wit u) = map e (u_write u).
  Proof. reflexivity. Qed.
  Lemma dz : det wit (e_zero F F 1 wit) True (e 0).
  Proof. exact (det_runs _ _ _ _ _ _ (r_zero F wit)). Qed.
  Lemma dd_sub (a b : F) : det wit (e_sub F F (e a) (e b)) True (e (a - b)).
  Proof. exact (det_runs _ _ _ _ _ _ (r_sub F wit a b)). Qed.
  Lemma dd_mul (a b : F) : det wit (e_mul F F (e a) (e b)) True (e (a * b)).
  Proof. exact (det_runs _ _ _ _ _ _ (r_mul F wit a b)). Qed.
  Lemma dd_const (a : F) : det wit (e_constant F F 1 wit a) True (e a).
  Proof. exact (det_runs _ _ _ _ _ _ (r_constant F wit a)). Qed.

  Lemma dd_unified_ky (c : pvals F) (y : F) :
    det wit (unified_ky_values F F 1 wit (pin_of wit c) (e y)) True
        (e (ck_unified (child_k c y)), e (ck_bridge (child_k c y))).
  Proof.
    unfold unified_ky_values. cbn [pin_of pi_uni pi_left pi_right]. rewrite uout_write_of.
    eapply det_bindt; [apply (dd_writes F wit y _ None)|]. eapply det_bindt; [apply dz|].
    eapply det_bindt; [apply dd_write|]. eapply det_bindt; [apply dd_finish_ky|].
    eapply det_bindt; [apply dd_writes|]. eapply det_bindt; [apply dd_writes|].
    eapply det_bindt; [apply dz|]. eapply det_bindt; [apply dd_write|]. eapply det_bindt; [apply dd_finish_ky|].
    eapply det_val; [apply det_ret|]. intros _. cbn [child_k ck_unified ck_bridge]. rewrite <- !k_of_hzs.
    repeat rewrite <- app_assoc. repeat rewrite hzs_app. reflexivity.
  Qed.
  Lemma dd_application_ky (c : pvals F) (y : F) :
    det wit (application_ky F F 1 wit (pin_of wit c) (e y)) True (e (ck_application (child_k c y))).
  Proof.
    unfold application_ky. cbn [pin_of pi_out pi_left pi_right].
    eapply det_bindt; [apply (dd_writes F wit y _ None)|]. eapply det_bindt; [apply dd_writes|]. eapply det_bindt; [apply dd_writes|].
    eapply det_val; [apply dd_finish_ky|]. intros _. cbn [child_k ck_application]. rewrite <- !k_of_hzs.
    repeat rewrite <- app_assoc. repeat rewrite hzs_app. reflexivity.
  Qed.
  Lemma dd_is_trivial (c : pvals F) : pv_out c <> [] ->
    det wit (is_trivial F F 1 wit (pin_of wit c)) True (bel wit (feqb (last (pv_out c) 0) 1)).
  Proof.
    intros H. unfold is_trivial. cbn [pin_of pi_out]. destruct (exists_last H) as (l & a & E). rewrite E, map_app, rev_app_distr, last_last.
    cbn [map rev app]. rewrite r_one. apply dd_is_equal.
  Qed.
  Lemma dd_is_base (l r : pvals F) : pv_out l <> [] -> pv_out r <> [] ->
    det wit (is_base_case F F 1 wit (pre_of wit l r)) True (bel wit (feqb (last (pv_out l) 0) 1 && feqb (last (pv_out r) 0) 1)).
  Proof.
    intros A B. unfold is_base_case. cbn [pre_of pr_left pr_right]. eapply det_bindt; [now apply dd_is_trivial|].
    eapply det_bindt; [now apply dd_is_trivial|]. apply dd_and.
  Qed.
  Lemma dd_pts (cb : F) (u : uvals F) : det wit (pts_consistent F F 1 cb (uout_of wit u) uall) (pts_on cb u) tt.
  Proof.
    assert (K : forall fs, det wit (pts_consistent F F 1 cb (uout_of wit u) fs) (forall p, In (FP p) fs -> on_curve cb (uv_pt u p)) tt).
    { induction fs as [|f fs IH]; cbn [pts_consistent].
      - eapply det_iff; [apply det_ret|]. cbn. split; [intros _ p []|auto].
      - destruct f as [f|f].
        + eapply det_iff; [eapply det_bind; [apply dd_consistent|intros _; exact IH]|]. cbn [In]. split.
          * intros [A B] p [E|G]; [inversion E; subst; auto|auto].
          * intros A. split; [apply A; now left|]. intros p G. apply A. now right.
        + eapply det_iff; [exact IH|]. cbn [In]. split; intros A p G; apply A; [|now right]. destruct G; [discriminate|auto]. }
    eapply det_iff; [apply K|]. unfold pts_on. split; intros H p; [apply H, uall_all|intros _; apply H].
  Qed.
  Lemma dd_pre (cb : F) (l r : pvals F) : det wit (pre_consistent F F 1 cb (pre_of wit l r)) (pts_on cb (pv_uni l) /\ pts_on cb (pv_uni r)) tt.
  Proof. unfold pre_consistent. eapply det_bind; [apply dd_pts|intros _; apply dd_pts]. Qed.

  (** ** collapse *)
  Lemma nth_error_map_e (l : list F) i : (i < length l)%nat -> nth_error (map e l) i = Some (e (nth i l 0)).
  Proof. intros H. now rewrite nth_error_map, (nth_error_nth' _ 0) by exact H. Qed.
  Lemma dd_groups M (mn mi : F) (ky : nat -> F) kyw (coll : list F) : (forall j, kyw j = e (ky j)) -> forall (ie : list (list F)) i,
    Forall (fun x => length x = num_error_terms M) ie -> (i + length ie <= length coll)%nat ->
    det wit (collapse_groups F F 1 wit M (mk_cfolder (e mn) (e mi)) kyw i (map (map e) ie) (map e coll))
        (forall j, (j < length ie)%nat ->
           nth (i + j) coll 0 = weigh M mi mn (entry M (nth j ie []) (map ky (seq ((i + j) * M) M)))) tt.
  Proof.
    intros KW. induction ie as [|x ie IH]; intros i W L; cbn [map collapse_groups].
    - eapply det_iff; [apply det_ret|]. cbn. split; [intros _ j Hj; lia|auto].
    - inversion W; subst. cbn [length] in L. replace (map kyw (seq (i * M) M)) with (map e (map ky (seq (i * M) M))) by (rewrite map_map; apply map_ext; intros; now rewrite KW).
      eapply det_iff.
      + eapply det_bindt; [apply dd_fold; [assumption|now rewrite map_length, seq_length]|].
        rewrite nth_error_map_e by lia. eapply det_bind; [apply dd_eequal|]. intros _. apply IH; [assumption|lia].
      + cbn [length]. split.
        * intros [A B] [|j] Hj; [rewrite Nat.add_0_r; cbn [nth]; auto|]. replace (i + S j)%nat with (S i + j)%nat by lia. apply B. lia.
        * intros A. split; [specialize (A O ltac:(lia)); rewrite Nat.add_0_r in A; auto|]. intros j Hj.
          replace (S i + j)%nat with (i + S j)%nat by lia. apply (A (S j)). lia.
  Qed.

  (** ** denominators *)
  Lemma dd_inv_add (base : F) diffs v : det wit (inv_add F F (e base) (map e diffs) (e v)) True
    (length diffs, map e (diffs ++ [base - v])).
  Proof.
    unfold inv_add. eapply det_bindt; [apply dd_sub|]. rewrite map_length, map_app. apply det_ret.
  Qed.
  Lemma dd_inv_circuits (omega : icid -> F) (base : F) : forall ids diffs,
    det wit (inv_add_circuits F F 1 wit omega (e base) (map e diffs) ids) True
        (combine ids (seq (length diffs) (length ids)), map e (diffs ++ map (fun id => base - omega id) ids)).
  Proof.
    induction ids as [|id ids IH]; intros diffs; cbn [inv_add_circuits].
    - eapply det_val; [apply det_ret|]. intros _. cbn. now rewrite app_nil_r.
    - eapply det_bindt; [apply dd_const|]. eapply det_bindt; [apply dd_inv_add|]. cbn [fst snd].
      eapply det_bindt; [apply IH|]. cbn [fst snd]. rewrite app_length. cbn [length].
      replace (length diffs + 1)%nat with (S (length diffs)) by lia.
      eapply det_val; [apply det_ret|]. intros _. cbn [length seq combine map]. rewrite <- app_assoc. reflexivity.
  Qed.
  Lemma dd_inv_all (diffs : list F) :
    det wit (inv_all F F 1 (map e diffs)) (Forall (fun d => d <> 0) diffs) (map e (map finv diffs)).
  Proof.
    induction diffs as [|d diffs IH]; cbn [map inv_all].
    - eapply det_iff; [apply det_ret|]. split; auto.
    - eapply det_iff.
      + apply det_bind with (C := d <> 0) (v := e (finv d)).
        * unfold det, el. destruct wit.
          -- intros H s. cbn [hon ev lift1 option_map]. rewrite (proj2 (feqb_false F _ _) H).
             change (mk_elem F F d (Some d)) with (hon d). rewrite e_invert_with_s.
             rewrite (proj2 (feqb_true F (d * finv d) 1)) by (field; exact H). eauto.
          -- intros r. cbn [wir ev lift1 option_map]. change (mk_elem F F d None) with (wir d). rewrite e_invert_with_w. split.
             ++ intros (q & Hq & ->). assert (N : d <> 0) by (intros ->; apply (f1_neq_0 F); rewrite <- Hq; ring).
                split; [exact N|]. f_equal. transitivity (finv d * (d * q)); [field; exact N|rewrite Hq; ring].
             ++ intros [N ->]. exists (finv d). split; [field; exact N|reflexivity].
        * intros _. eapply det_bind; [exact IH|intros _; apply det_ret].
      + split; [intros (A & B & _); constructor; auto|]. intros A. inversion A; auto.
  Qed.
  Lemma dd_at_ix {A : Type} (l : list A) i v : nth_error l i = Some v -> det wit (at_ix F F l i) True v.
  Proof. intros H. unfold at_ix. rewrite H. apply det_ret. Qed.
  Lemma dd_at_ids (inv : list (elem F F)) (g : icid -> F) : forall ids s,
    (forall i id, nth_error ids i = Some id -> nth_error inv (s + i) = Some (e (g id))) ->
    det wit (at_ids F F inv (combine ids (seq s (length ids)))) True (map (fun id => (id, e (g id))) ids).
  Proof.
    induction ids as [|id ids IH]; intros s H; cbn [length seq combine at_ids]; [apply det_ret|].
    eapply det_bindt; [apply dd_at_ix; pose proof (H O id eq_refl) as H0; rewrite Nat.add_0_r in H0; exact H0|].
    eapply det_bindt; [apply (IH (S s)); intros i id' Hi; specialize (H (S i) id' Hi); now replace (S s + i)%nat with (s + S i)%nat by lia|].
    apply det_ret.
  Qed.
  (** the inverted differences *)
  Definition inv_denoms (uu : F) (d : denoms F) : denoms F :=
    let g x := finv (uu - x) in
    let ch c := mk_cdenoms (g (cd_u c)) (g (cd_y c)) (g (cd_x c)) (g (cd_cid c)) in
    mk_denoms (ch (dn_left d)) (ch (dn_right d)) (g (dn_w d)) (g (dn_x d)) (g (dn_y d)) (g (dn_xz d)) (fun id => g (dn_internal d id)).
  Definition den_el (d : denoms F) : denoms (elem F F) :=
    let ch c := mk_cdenoms (e (cd_u c)) (e (cd_y c)) (e (cd_x c)) (e (cd_cid c)) in
    mk_denoms (ch (dn_left d)) (ch (dn_right d)) (e (dn_w d)) (e (dn_x d)) (e (dn_y d)) (e (dn_xz d))
              (id_get F F (e (cd_u (dn_left d))) (map (fun id => (id, e (dn_internal d id))) icid_all)).
  Lemma dd_denominators (omega : icid -> F) (l r : pvals F) (u : uvals F) :
    det wit (denominators F F 1 wit omega (e (uv_el u Uu)) (e (uv_el u Uw)) (e (uv_el u Ux)) (e (uv_el u Uy)) (e (uv_el u Uz)) (pre_of wit l r))
        (~ In (uv_el u Uu) (points_of (open_points omega l r u)))
        (den_el (inv_denoms (uv_el u Uu) (open_points omega l r u))).
  Proof.
    set (uu := uv_el u Uu). unfold denominators. cbn [pre_of pin_of pr_left pr_right pi_uni pi_cid uout_of uo_el].
    eapply det_bindt; [apply dd_mul|].
    eapply det_bindt; [apply (dd_inv_add uu [])|]. cbn [fst snd length app].
    do 11 (eapply det_bindt; [apply dd_inv_add|]; cbn [fst snd length app]).
    eapply det_bindt; [apply dd_inv_circuits|]. cbn [fst snd].
    set (diffs := _ ++ map _ icid_all).
    assert (D : diffs = map (fun x => uu - x) (points_of (open_points omega l r u))) by reflexivity.
    eapply det_iff.
    - eapply det_bind; [apply dd_inv_all|]. intros _. rewrite D.
      do 12 (eapply det_bindt; [apply dd_at_ix; reflexivity|]).
      eapply det_bindt; [apply (dd_at_ids _ (fun id => finv (uu - omega id)) icid_all)|].
      + cbn [length]. intros i id H.
        do 13 (destruct i as [|i]; [cbn in H; inversion H; subst; reflexivity|]). destruct i; discriminate.
      + apply det_ret.
    - rewrite D. split.
      + intros [A _] Hin. rewrite Forall_forall in A. apply (A (uu - uu)); [|ring]. apply in_map_iff. eauto.
      + intros N. split; [|exact I]. apply Forall_forall. intros x Hx. apply in_map_iff in Hx. destruct Hx as (p & <- & Hp) .
        intros E. apply N. apply (proj1 (fsub_eq_0 F uu p)) in E. now rewrite E.
  Qed.

  (** ** the quotient loop *)
  Definition tri (t : F * F * F) : elem F F * elem F F * elem F F := (e (fst (fst t)), e (snd (fst t)), e (snd t)).
  Definition tval (t : F * F * F) : F := (fst (fst t) - snd (fst t)) * snd t.
  Lemma dd_fu (al : F) : forall qs acc, det wit (fu_loop F F (e al) (option_map e acc) (map tri qs)) True (option_map e (hzs al (map tval qs) acc)).
  Proof.
    induction qs as [|[[pu v] d] qs IH]; intros acc; cbn [map fu_loop]; [apply det_ret|].
    unfold tri at 1. cbn [fst snd]. eapply det_bindt; [apply dd_sub|]. eapply det_bindt; [apply dd_mul|].
    eapply det_bindt; [apply dd_write|]. apply (IH (Some (hzv al acc ((pu - v) * d)))).
  Qed.
  Definition ceval_of (c : ceval F) : ceval (elem F F) := mk_ceval (fun i => e (ce_rx c i)) (e (ce_a c)) (e (ce_b c)) (e (ce_xy c)) (e (ce_p c)).
  Definition eval_of (v : evalout F) : evalout (elem F F) :=
    mk_evalout (ceval_of (eo_left v)) (ceval_of (eo_right v)) (e (eo_wx0 v)) (e (eo_wx1 v)) (e (eo_wy v)) (e (eo_a v)) (e (eo_b v)) (e (eo_xy v)).
  Definition cquery_of (c : cquery F) : cquery (elem F F) :=
    mk_cquery (fun i => e (cq_rx c i)) (e (cq_a c)) (e (cq_b c)) (e (cq_child_xy_w c)) (e (cq_xy_cid c)) (e (cq_wy_x c)).
  Definition query_of (q : queryout F) : queryout (elem F F) :=
    mk_queryout (fun i => e (qo_fixed q i)) (e (qo_wxy q)) (cquery_of (qo_left q)) (cquery_of (qo_right q)).
  Lemma queries_of ev q vl vr d ax bx :
    poly_queries (eval_of ev) (query_of q) (e vl) (e vr) (den_el d) (e ax) (e bx) = map tri (poly_queries ev q vl vr d ax bx).
  Proof. reflexivity. Qed.
  Lemma eval_write_of ev : eval_write (eval_of ev) = map e (eval_write ev).
  Proof. reflexivity. Qed.
  Lemma queries_inv ev q vl vr uu d ax bx :
    map tval (poly_queries ev q vl vr (inv_denoms uu d) ax bx)
    = map (fun t => (fst (fst t) - snd (fst t)) * finv (uu - snd t)) (poly_queries ev q vl vr d ax bx).
  Proof. reflexivity. Qed.
  Lemma quotients_ok al uu qs :
    orz (hzs al (map (fun t : F * F * F => (fst (fst t) - snd (fst t)) * finv (uu - snd t)) qs) None) = fold_quotients al uu qs.
  Proof.
    rewrite hzs_hfold, map_length. unfold fold_quotients, hfold. apply fsum_ext. intros i Hi. f_equal.
    rewrite (nth_indep _ 0 ((fun t : F * F * F => (fst (fst t) - snd (fst t)) * finv (uu - snd t)) (0, 0, 0))) by now rewrite map_length.
    rewrite (map_nth (fun t : F * F * F => (fst (fst t) - snd (fst t)) * finv (uu - snd t))).
    destruct (nth i qs (0, 0, 0)) as [[a b] c]. rewrite fdiv_def. reflexivity.
  Qed.
  Lemma dd_axbx k M N (q : queryout F) (u : uvals F) : (0 < M)%nat -> (length (build_claims (eval_source q)) <= M * N)%nat ->
    det wit (compute_axbx 1 wit (e (uv_el u Uz)) (e (t_spec F (2 ^ k) (uv_el u Ux) (uv_el u Uz))) (qo_fixed (query_of q)) M N
                          (eval_source (query_of q)) (e (finv (uv_el u Umu))) (e (finv (uv_el u Umu')))
                          (e (uv_el u Umu * uv_el u Unu)) (e (uv_el u Umu' * uv_el u Unu')))
        True (e (fst (axbx (2 ^ k) M N q u)), e (snd (axbx (2 ^ k) M N q u))).
  Proof.
    intros HM HL. unfold compute_axbx, axbx.
    set (t := t_spec F (2 ^ k) (uv_el u Ux) (uv_el u Uz)). set (z := uv_el u Uz).
    replace (build_claims (eval_source (query_of q))) with (map (claim_map e e e e) (build_claims (eval_source q))) by reflexivity.
    set (cs := build_claims (eval_source q)) in *. cbn [fst snd qo_fixed query_of].
    apply det_bindt with (v := map (fun c => (e (ev_a F z c), e (ev_b F (qo_fixed q) t c))) cs).
    { unfold det, el. destruct wit.
      - intros _ s. destruct (ev_claims_s F z (qo_fixed q) t cs s) as (n & E). eexists. exact E.
      - intros r. pose proof (ev_claims_w F z (qo_fixed q) t cs r) as H. split; [intros X; split; [exact I|apply H; exact X]|intros [_ X]; apply H; exact X]. }
    rewrite !map_map. cbn [fst snd]. rewrite <- (map_map (ev_a F z) e), <- (map_map (ev_b F (qo_fixed q) t) e).
    assert (TL : forall l s1 s2, length l = length cs -> det wit (fold_two_layer 1 wit M N (map e l) (e s1) (e s2)) True (e (two_layer M N l s1 s2))).
    { intros l s1 s2 L. unfold det, el. destruct wit; [intros _ s; destruct (fold_two_layer_s F M N l s1 s2 s HM ltac:(rewrite L; assumption)) as (n & E); eexists; exact E|].
      intros r. pose proof (fold_two_layer_w F M N l s1 s2 r HM ltac:(rewrite L; assumption)) as H.
      split; [intros X; split; [exact I|apply H; exact X]|intros [_ X]; apply H; exact X]. }
    eapply det_bindt; [apply TL, map_length|]. eapply det_bindt; [apply TL, map_length|]. apply det_ret.
  Qed.
End Blocks.
