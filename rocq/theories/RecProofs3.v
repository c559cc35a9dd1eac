(** The recursion circuits: hashes_1 and hashes_2. *)
From Coq Require Import List Arith NArith Bool Lia Ring Field.
From Verif Require Import FieldDef ArithModel GadgetModel GadgetSpec GadgetProofs Runs PointSpec PointProofs EndoSpec EndoProofs TxzProofs TProofs
  SpongeModel SpongeSpec SpongeProofs FoldModel FoldSpec FoldProofs2 PcdModel PcdSpec PcdProofs2 RecModel RecSpec RecProofs RecProofs2.
Import ListNotations.
Open Scope f_scope.
Local Open Scope nat_scope.

Section Transcript.
  Variable F : Field.
  Open Scope f_scope.
  Variable wit : bool.
  Variable P : pparams F.
  Hypothesis WP : wf_params P.
  Local Notation e := (@el F wit).
  Local Notation perm := (permutation F F 1 wit P).
  Local Notation pi := (poseidon P).
  Local Notation rate := (pp_RATE P).
  Local Notation repr := (rep F wit P).
  Lemma rate_ok : (1 <= rate <= pp_T P)%nat.
  Proof. now destruct WP as (_ & R & _). Qed.
  Lemma perm_hyp : forall v, length v = pp_T P -> length (pi v) = pp_T P /\
    runs wit (perm (map e v)) (map e (pi v)) (perm_gates F P) (2 * perm_gates F P).
  Proof. intros v L. split; [now apply poseidon_length|now apply r_permutation]. Qed.
  Lemma t_absorb m d x : repr m d -> exists m', repr m' (d_absorb rate pi d x) /\ det wit (sp_absorb F F P perm m (e x)) True m'.
  Proof.
    intros R. destruct (absorb_ok F wit P perm pi _ _ rate_ok perm_hyp m d x R) as (m' & R' & g & c & H & _).
    exists m'. split; [exact R'|]. exact (det_runs _ _ _ _ _ _ H).
  Qed.
  Lemma t_write m d p : repr m d -> exists m', repr m' (d_absorb rate pi (d_absorb rate pi d (fst p)) (snd p)) /\
    det wit (tr_write F F 1 wit P m (pel wit p)) True m'.
  Proof.
    intros R. destruct (t_absorb m d (fst p) R) as (m1 & R1 & H1). destruct (t_absorb m1 _ (snd p) R1) as (m2 & R2 & H2).
    exists m2. split; [exact R2|]. unfold tr_write. cbn [pel px py]. eapply det_bindt; [exact H1|exact H2].
  Qed.
  Lemma t_chal m d : repr m d ->
    match d_squeeze rate pi d with
    | inl _ => det wit (tr_chal F F 1 wit P m) False (e 0, m)
    | inr (x, d') => exists m', repr m' d' /\ det wit (tr_chal F F 1 wit P m) True (e x, m')
    end.
  Proof.
    intros R. pose proof (squeeze_ok F wit P perm pi _ _ rate_ok perm_hyp m d R) as H. unfold tr_chal, tr_challenge.
    destruct (d_squeeze rate pi d) as [er|[x d']].
    - eapply det_iff; [eapply det_bind; [exact (det_runs _ _ _ _ _ _ H)|]|].
      + intros _. cbv beta iota. instantiate (1 := False). unfold det. destruct wit; [tauto|]. intros r. cbn. tauto.
      + tauto.
    - destruct H as (m' & R' & g & c & H & _). exists m'. split; [exact R'|]. eapply det_bindt; [exact (det_runs _ _ _ _ _ _ H)|]. apply det_ret.
  Qed.
  Lemma t_resumed m d b : repr m d ->
    match d_squeeze rate pi d with
    | inl er => det wit (rs_challenge F F P perm (mk_resumed F F m b)) True (inl er)
    | inr (x, d') => exists m', repr m' d' /\ det wit (rs_challenge F F P perm (mk_resumed F F m b)) True (inr (e x, mk_resumed F F m' true))
    end.
  Proof.
    intros R. pose proof (squeeze_ok F wit P perm pi _ _ rate_ok perm_hyp m d R) as H. unfold rs_challenge. cbn [rs_sponge].
    destruct (d_squeeze rate pi d) as [er|[x d']].
    - eapply det_bindt; [exact (det_runs _ _ _ _ _ _ H)|]. apply det_ret.
    - destruct H as (m' & R' & g & c & H & _). exists m'. split; [exact R'|]. eapply det_bindt; [exact (det_runs _ _ _ _ _ _ H)|]. apply det_ret.
  Qed.
  Definition d_absorbs (vs : list F) (d : duplex F) : duplex F := fold_left (d_absorb rate pi) vs d.
  Lemma d_run_absorbs vs : forall ops d, d_run rate pi (map DAbsorb vs ++ ops) d = d_run rate pi ops (d_absorbs vs d).
  Proof. induction vs as [|v vs IH]; intros ops d; [reflexivity|]. cbn [map app d_run]. apply IH. Qed.
  Lemma t_chal_ok m d x d' : repr m d -> d_squeeze rate pi d = inr (x, d') ->
    exists m', repr m' d' /\ det wit (tr_chal F F 1 wit P m) True (e x, m').
  Proof. intros R E. pose proof (t_chal m d R) as H. rewrite E in H. exact H. Qed.
  Lemma t_resumed_ok m d b x d' : repr m d -> d_squeeze rate pi d = inr (x, d') ->
    exists m', repr m' d' /\ det wit (rs_challenge F F P perm (mk_resumed F F m b)) True (inr (e x, mk_resumed F F m' true)).
  Proof. intros R E. pose proof (t_resumed m d b R) as H. rewrite E in H. exact H. Qed.
  Lemma d_run_sq r d v vs df : d_run rate pi (DSqueeze :: r) d = inr (v :: vs, df) ->
    exists d', d_squeeze rate pi d = inr (v, d') /\ d_run rate pi r d' = inr (vs, df).
  Proof.
    cbn [d_run]. destruct (d_squeeze rate pi d) as [er|[x d1]]; [discriminate|].
    destruct (d_run rate pi r d1) as [er|[ys d2]] eqn:E; [discriminate|]. intros [= <- <- <-]. eauto.
  Qed.
  Lemma t_new of_u tag : exists m, repr m (d_absorbs (tag_values F of_u tag) (d_new (pp_T P))) /\
    det wit (tr_new F F 1 wit P perm of_u tag) True m.
  Proof.
    assert (K : forall vs m d, repr m d -> exists m', repr m' (d_absorbs vs d) /\ det wit (absorb_constants F F 1 wit P perm vs m) True m').
    { induction vs as [|v vs IH]; intros m d R; cbn [absorb_constants d_absorbs fold_left].
      - exists m. split; [exact R|apply det_ret].
      - destruct (t_absorb m d v R) as (m1 & R1 & H1). destruct (IH _ _ R1) as (m2 & R2 & H2). exists m2. split; [exact R2|].
        eapply det_bindt; [apply dd_const|]. eapply det_bindt; [exact H1|exact H2]. }
    destruct (rep_new F wit P rate_ok) as [RN RR]. destruct (K (tag_values F of_u tag) _ _ RR) as (m & R & H).
    exists m. split; [exact R|]. unfold tr_new. eapply det_bindt; [exact (det_runs _ _ _ _ _ _ RN)|exact H].
  Qed.
End Transcript.

Lemma el_inj {F : Field} wit (a b : F) : el wit a = el wit b -> a = b.
Proof. unfold el. destruct wit; unfold hon, wir; congruence. Qed.
Lemma pel_inj {F : Field} wit (a b : F * F) : pel wit a = pel wit b -> a = b.
Proof. destruct a, b. unfold pel. cbn [fst snd]. intros [= A B]. apply el_inj in A, B. congruence. Qed.
Ltac slots := split; intros ? ? SE; match goal with f : upt |- _ => destruct f | f : uel |- _ => destruct f end; cbn in SE; first [discriminate|injection SE as <-; eexists; reflexivity].
Ltac agr A f := let X := fresh "AG" in pose proof (A f) as X; cbn [agree_f sl_value ub_el ub_pt set_el set_pt upt_eqb uel_eqb ub_new] in X; first [apply el_inj in X|apply pel_inj in X]; try rewrite X in *; clear X.
Ltac fb H x Hx := apply holds_bind in H; destruct H as (x & Hx & H).
Ltac fdet T Hx := apply T in Hx; destruct Hx as [_ ->].


(** a transcript step in a hypothesis; [R] relates the sponge to the duplex *)
Ltac fchal WP R H := let x := fresh "x" in let Hx := fresh "Hx" in let T := fresh "T" in let E := fresh "E" in
  fb H x Hx; pose proof (t_chal _ _ _ WP _ _ R) as T;
  match type of T with match ?q with _ => _ end => destruct q as [?|[? ?]] eqn:E end;
  [exfalso; apply T in Hx; tauto|]; let m := fresh "m" in destruct T as (m & ? & T); clear R; rename_last R; fdet T Hx; clear T; cbv beta iota zeta in H
with rename_last R := match goal with K : rep _ _ _ _ _ |- _ => rename K into R end.
Ltac fwrite WP R H p := let x := fresh "x" in let Hx := fresh "Hx" in let T := fresh "T" in let m := fresh "m" in let R' := fresh "R'" in
  fb H x Hx; destruct (t_write _ _ _ WP _ _ p R) as (m & R' & T); clear R; rename R' into R; fdet T Hx; clear T.
Ltac fprov H := let x := fresh "x" in let Hx := fresh "Hx" in fb H x Hx; apply provide_el_w in Hx; [subst x|reflexivity].
Ltac frecv H p O := let x := fresh "x" in let Hx := fresh "Hx" in fb H x Hx; apply receive_pt_w in Hx; [|reflexivity|reflexivity];
  destruct Hx as (p & O & ->); cbv beta iota zeta in H.
(** the same in a goal *)
Ltac bdet T := eapply okx_bind; [exact (det_okr _ _ _ _ _ T I)|]; clear T; cbv beta iota zeta.
Ltac bchal WP R E := let m := fresh "m" in let R' := fresh "R'" in let T := fresh "T" in
  destruct (t_chal_ok _ _ _ WP _ _ _ _ R E) as (m & R' & T); clear R; rename R' into R; bdet T.
Ltac bwrite WP R p := let m := fresh "m" in let R' := fresh "R'" in let T := fresh "T" in
  destruct (t_write _ _ _ WP _ _ p R) as (m & R' & T); clear R; rename R' into R; bdet T.
Ltac bprov := eapply okx_bind; [apply provide_el_ok; reflexivity|].
Ltac brecv O := eapply okx_bind; [eapply receive_pt_ok; [reflexivity|reflexivity|apply O]|]; cbv beta iota zeta.

Section Hashes2.
  Variable F : Field.
  Open Scope f_scope.
  Variables (cb : F) (P : pparams F).
  Hypothesis WP : wf_params P.
  Lemma hashes_2_fwd (oe : ovals F) r : length (ov_sponge oe) = pp_T P ->
    holds (hashes_2 F F 1 false cb P (oe_of false oe) None) r ->
    exists u, pts_on cb u /\ transcript_2 P u (ov_sponge oe) /\ r = (map (el false) (u_write u ++ [0]), None).
  Proof.
    intros L H. unfold hashes_2 in H. cbn [oe_of oe_sponge] in H.
    pose proof (rep_fresh_squeeze F false P (ov_sponge oe) 0 L) as R.
    unfold tr_resume, sp_resume in H.
    fb H x Hx. pose proof (t_resumed _ _ _ WP _ _ false R) as T.
    match type of T with match ?q with _ => _ end => destruct q as [?|[mu d1]] eqn:E1 end; [fdet T Hx; destruct H|].
    destruct T as (m1 & R1 & T). fdet T Hx. cbv beta iota zeta in H. clear R T. rename R1 into R. fprov H.
    fb H x Hx. pose proof (t_resumed _ _ _ WP _ _ true R) as T.
    match type of T with match ?q with _ => _ end => destruct q as [?|[nu d2]] eqn:E2 end; [fdet T Hx; destruct H|].
    destruct T as (m2 & R1 & T). fdet T Hx. cbv beta iota zeta in H. clear R T. rename R1 into R. fprov H.
    fb H x Hx. apply ret_w in Hx. cbn [rs_sponge] in Hx. subst x.
    frecv H p1 O1. fwrite WP R H p1. fchal WP R H. fchal WP R H. fprov H. fprov H.
    frecv H p2 O2. fwrite WP R H p2. fchal WP R H. fprov H.
    frecv H p3 O3. fwrite WP R H p3. fchal WP R H. fprov H.
    frecv H p4 O4. fwrite WP R H p4. fchal WP R H. fprov H.
    frecv H p5 O5. fwrite WP R H p5. fchal WP R H. fprov H.
    apply finish_fwd in H; [|reflexivity|slots]. destruct H as (u & A & ->).
    agr A (FE Umu). agr A (FE Unu). agr A (FE Umu'). agr A (FE Unu'). agr A (FE Ux). agr A (FE Ualpha). agr A (FE Uu). agr A (FE Upre_beta).
    agr A (FP POuterError). agr A (FP PAB). agr A (FP PQuery). agr A (FP PF). agr A (FP PEval).
    exists u. split; [|split; [|reflexivity]].
    - intros p. pose proof (A (FP p)) as Ap. destruct p; cbn in Ap; assumption.
    - unfold transcript_2. eexists. unfold ops_2, t_pt. cbn [app d_run].
      repeat match goal with E : d_squeeze _ _ ?d = inr _ |- context [d_squeeze _ _ ?d] => rewrite E end. reflexivity.
  Qed.
  Definition h2_set : list ufield :=
    [FE Umu; FE Unu; FP POuterError; FE Umu'; FE Unu'; FP PAB; FE Ux; FP PQuery; FE Ualpha; FP PF; FE Uu; FP PEval; FE Upre_beta].
  Lemma hashes_2_bwd (wit : bool) (oe : ovals F) (u : uvals F) (cov : coverage) : length (ov_sponge oe) = pp_T P ->
    pts_on cb u -> transcript_2 P u (ov_sponge oe) -> (forall f, In f h2_set -> cov f = false) ->
    okx F wit (hashes_2 F F 1 wit cb P (oe_of wit oe) (inst_of wit u cov)) (covered wit (u_write u ++ [0]) cov h2_set).
  Proof.
    intros L O (df & H) HC. unfold ops_2, chals_2, t_pt in H. cbn [app map] in H.
    repeat (first [apply d_run_sq in H; let d := fresh "d" in let E := fresh "E" in destruct H as (d & E & H)|progress cbn [d_run] in H]).
    pose proof (rep_fresh_squeeze F wit P (ov_sponge oe) 0 L) as R.
    unfold hashes_2, tr_resume, sp_resume. cbn [oe_of oe_sponge].
    destruct (t_resumed_ok _ _ _ WP _ _ false _ _ R E) as (m1 & R1 & T1). bdet T1. clear R. bprov.
    destruct (t_resumed_ok _ _ _ WP _ _ true _ _ R1 E0) as (m2 & R & T2). bdet T2. clear R1. bprov.
    eapply okx_bind; [apply okr_ret|]. cbn [rs_sponge].
    brecv O. bwrite WP R (uv_pt u POuterError). bchal WP R E1. bchal WP R E2. bprov. bprov.
    brecv O. bwrite WP R (uv_pt u PAB). bchal WP R E3. bprov.
    brecv O. bwrite WP R (uv_pt u PQuery). bchal WP R E4. bprov.
    brecv O. bwrite WP R (uv_pt u PF). bchal WP R E5. bprov.
    brecv O. bwrite WP R (uv_pt u PEval). bchal WP R E6. bprov.
    eapply finish_ok; [reflexivity| |intros [[]|[]]; reflexivity|exact HC].
    intros [[]|[]]; cbn; auto.
  Qed.
End Hashes2.

Ltac fcond T H C := let x := fresh "x" in let Hx := fresh "Hx" in fb H x Hx; apply T in Hx; destruct Hx as [C ->].
Ltac fplain T H := let x := fresh "x" in let Hx := fresh "Hx" in fb H x Hx; apply T in Hx; destruct Hx as [_ ->]; cbv beta iota zeta in H.
Ltac bcond T C := eapply okx_bind; [exact (det_okr _ _ _ _ _ T C)|]; cbv beta iota zeta.

Ltac beq := eapply okx_bind; [eapply det_okr; [apply dd_eequal|reflexivity]|]; cbv beta iota zeta.

Section Hashes1.
  Variable F : Field.
  Open Scope f_scope.
  Variables (cb : F) (P : pparams F) (of_u : N -> F) (tag : list N) (log2 : nat).
  Hypothesis WP : wf_params P.
  Definition h1_out (l r : pvals F) (u : uvals F) : list F := u_write u ++ pv_out l ++ pv_out r ++ [0].
  Definition h1_set : list ufield := [FP PPreamble; FE Uw; FP PSPrime; FE Uy; FE Uz; FP PInnerError].
  Lemma save_len (d d' : duplex F) m wit : rep F wit P m d -> d_save_resume (poseidon P) d = inr d' -> length (d_vec d') = pp_T P.
  Proof.
    intros (L & _) E. unfold d_save_resume in E. destruct (d_squeezing d); [discriminate|]. destruct (_ =? 0)%nat; [discriminate|].
    inversion E. cbn [d_permute d_vec]. now apply poseidon_length.
  Qed.
  Lemma hashes_1_fwd (l r : pvals F) (oe : ovals F) res : length (ov_sponge oe) = pp_T P ->
    holds (hashes_1 F F 1 false cb P of_u tag log2 (pre_of false l r) (oe_of false oe) None) res ->
    exists u, pts_on cb u /\ hashes_1_rel P (tag_values F of_u tag) log2 l r oe u /\ res = (map (el false) (h1_out l r u), None).
  Proof.
    intros L H. unfold hashes_1 in H. cbn [oe_of oe_sponge oe_left oe_right pre_of pr_left pr_right] in H.
    fcond (dd_root F false log2 (pv_cid l)) H C1. fcond (dd_root F false log2 (pv_cid r)) H C2.
    destruct (t_new F false P WP of_u tag) as (m0 & R & T). fplain T H. clear T.
    frecv H p1 O1. fwrite WP R H p1. fchal WP R H. fprov H.
    frecv H p2 O2. fwrite WP R H p2. fchal WP R H. fchal WP R H. fprov H. fprov H. rename f0 into y.
    fplain (dd_application_ky F false l y) H. fplain (dd_application_ky F false r y) H.
    fcond (dd_eequal F false (ck_application (child_k l y)) (ck_application (ov_left oe))) H K1.
    fcond (dd_eequal F false (ck_application (child_k r y)) (ck_application (ov_right oe))) H K2.
    fplain (dd_unified_ky F false l y) H. fplain (dd_unified_ky F false r y) H. cbn [fst snd] in H.
    fcond (dd_eequal F false (ck_unified (child_k l y)) (ck_unified (ov_left oe))) H K3.
    fcond (dd_eequal F false (ck_unified (child_k r y)) (ck_unified (ov_right oe))) H K4.
    fcond (dd_eequal F false (ck_bridge (child_k l y)) (ck_bridge (ov_left oe))) H K5.
    fcond (dd_eequal F false (ck_bridge (child_k r y)) (ck_bridge (ov_right oe))) H K6.
    frecv H p3 O3. fwrite WP R H p3.
    fb H x Hx.
    pose proof (save_ok F false P (permutation F F 1 false P) (poseidon P) _ _ (rate_ok F P WP) (perm_hyp F false P WP) _ _ R) as T.
    match type of T with match ?q with _ => _ end => destruct q as [er|d'] eqn:ES end.
    { apply T in Hx. subst x. destruct H. }
    destruct T as (T & _). apply T in Hx. subst x. pose proof (save_len _ _ _ _ R ES) as LS.
    fcond (dd_esequal F false (d_vec d') (ov_sponge oe) ltac:(congruence)) H K7.
    fb H x Hx. apply finish_ns_fwd in Hx; [|reflexivity|slots]. destruct Hx as (u & A & ->).
    fplain (dz F false) H. apply ret_w in H. subst res.
    agr A (FE Uw). agr A (FE Uy). agr A (FE Uz). agr A (FP PPreamble). agr A (FP PSPrime). agr A (FP PInnerError).
    exists u. split; [|split].
    - intros p. pose proof (A (FP p)) as Ap. destruct p; cbn in Ap; assumption.
    - repeat split; auto.
      + destruct (ov_left oe) as [a b c]. cbn [ck_application ck_unified ck_bridge] in *. unfold child_k in *.
        cbn [ck_application ck_unified ck_bridge] in *. congruence.
      + destruct (ov_right oe) as [a b c]. cbn [ck_application ck_unified ck_bridge] in *. unfold child_k in *.
        cbn [ck_application ck_unified ck_bridge] in *. congruence.
      + exists d'. split; [|exact K7]. unfold ops_1, t_pt. rewrite <- !app_assoc, d_run_absorbs. cbn [app d_run].
        repeat match goal with E : d_squeeze _ _ ?d = inr _ |- context [d_squeeze _ _ ?d] => rewrite E end. rewrite ES. reflexivity.
    - unfold h1_out. cbn [fst snd pin_of pi_out]. rewrite !map_app. reflexivity.
  Qed.
  Lemma hashes_1_bwd (wit : bool) (l r : pvals F) (oe : ovals F) (u : uvals F) (cov : coverage) :
    length (ov_sponge oe) = pp_T P -> pts_on cb u -> hashes_1_rel P (tag_values F of_u tag) log2 l r oe u ->
    (forall f, In f h1_set -> cov f = false) ->
    okx F wit (hashes_1 F F 1 wit cb P of_u tag log2 (pre_of wit l r) (oe_of wit oe) (inst_of wit u cov))
        (covered wit (h1_out l r u) cov h1_set).
  Proof.
    intros L O (C1 & C2 & KL & KR & d' & H & DV) HC.
    unfold ops_1, chals_1, t_pt in H. rewrite <- !app_assoc, d_run_absorbs in H. cbn [app map] in H.
    repeat (first [apply d_run_sq in H; let d := fresh "d" in let E := fresh "E" in destruct H as (d & E & H)|progress cbn [d_run] in H]).
    unfold hashes_1. cbn [oe_of oe_sponge oe_left oe_right pre_of pr_left pr_right]. rewrite KL, KR.
    bcond (dd_root F wit log2 (pv_cid l)) C1. bcond (dd_root F wit log2 (pv_cid r)) C2.
    destruct (t_new F wit P WP of_u tag) as (m0 & R & T). bdet T.
    brecv O. bwrite WP R (uv_pt u PPreamble). bchal WP R E. bprov.
    brecv O. bwrite WP R (uv_pt u PSPrime). bchal WP R E0. bchal WP R E1. bprov. bprov.
    set (y := uv_el u Uy) in *.
    bcond (dd_application_ky F wit l y) I. bcond (dd_application_ky F wit r y) I. cbn [cky_of ck_application ck_unified ck_bridge].
    beq.
    beq.
    bcond (dd_unified_ky F wit l y) I. bcond (dd_unified_ky F wit r y) I. cbn [fst snd].
    beq.
    beq.
    beq.
    beq.
    brecv O. bwrite WP R (uv_pt u PInnerError).
    pose proof (save_ok F wit P (permutation F F 1 wit P) (poseidon P) _ _ (rate_ok F P WP) (perm_hyp F wit P WP) _ _ R) as T.
    match type of H with match ?q with _ => _ end = _ => destruct q as [er|ds] eqn:ES end; [discriminate|].
    inversion H; subst ds. destruct T as (T & _). pose proof (det_runs F _ _ _ _ _ T) as T'. bdet T'.
    rewrite DV.
    bcond (dd_esequal F wit (ov_sponge oe) (ov_sponge oe) eq_refl) (eq_refl (ov_sponge oe)).
    match goal with |- okx _ _ (gbind (finish_no_suffix _ _ _ _ ?b) _) _ =>
      destruct (finish_ns_ok F cb wit u cov b h1_set) as (res & [Q1 Q2] & Q) end.
    - reflexivity.
    - intros [[]|[]]; cbn; auto.
    - intros [[]|[]]; reflexivity.
    - exact HC.
    - eapply okx_bind; [exact Q|]. bcond (dz F wit) I.
      eexists. split; [|apply okr_ret]. split; [|exact Q2]. cbn [fst pin_of pi_out]. rewrite Q1. unfold h1_out. rewrite !map_app. reflexivity.
  Qed.
End Hashes1.
