(** The recursion circuits: unified instance, building blocks. *)
From Coq Require Import List Arith NArith Bool Lia Ring Field.
From Verif Require Import FieldDef ArithModel GadgetModel GadgetSpec GadgetProofs Runs PointSpec PointProofs EndoSpec EndoProofs TxzProofs TProofs
  SpongeModel SpongeSpec SpongeProofs FoldModel FoldSpec FoldProofs2 PcdModel PcdSpec PcdProofs2 RecModel RecSpec.
Import ListNotations.
Open Scope f_scope.
Local Open Scope nat_scope.

(** programs whose outcome is determined, under a condition *)
Definition det {F : Field} {A : Type} (wit : bool) (p : G F F A) (C : Prop) (v : A) : Prop :=
  if wit then C -> forall s, exists s', simulate p s = Some (v, s') else forall r, holds p r <-> C /\ r = v.
(** [v] is a possible outcome: satisfies the constraints, or is that of the honest execution *)
Definition okr {F : Field} {A : Type} (wit : bool) (p : G F F A) (v : A) : Prop :=
  if wit then forall s, exists s', simulate p s = Some (v, s') else holds p v.
Definition pel {F : Field} (wit : bool) (p : F * F) : point F F := mk_point F F (el wit (fst p)) (el wit (snd p)).

Section Basics.
  Variable F : Field.
  Add Field FFrb : (f_theory F).
  Open Scope f_scope.
  Variable wit : bool.
  Local Notation e := (@el F wit).
  Lemma det_runs {A : Type} (p : G F F A) v g c : runs wit p v g c -> det wit p True v.
  Proof. unfold runs, det. destruct wit; intros H; [intros _ s; rewrite H; eauto|]. intros r. rewrite H. tauto. Qed.
  Lemma det_ret {A : Type} (v : A) : det wit (GRet v : G F F A) True v.
  Proof. exact (det_runs _ _ _ _ (runs_ret F wit v)). Qed.
  Lemma det_bind {A B : Type} (p : G F F A) (f : A -> G F F B) C D v w :
    det wit p C v -> (C -> det wit (f v) D w) -> det wit (gbind p f) (C /\ D) w.
  Proof.
    unfold det. destruct wit; intros H K.
    - intros [HC HD] s. destruct (H HC s) as (s' & E). rewrite sim_bind, E. exact (K HC HD s').
    - intros r. rewrite holds_bind. split.
      + intros (x & Hx & Hr). apply H in Hx. destruct Hx as [HC ->]. apply (K HC) in Hr. tauto.
      + intros [[HC HD] ->]. exists v. split; [apply H; auto|]. apply (K HC). auto.
  Qed.
  Lemma det_bindt {A B : Type} (p : G F F A) (f : A -> G F F B) D v w :
    det wit p True v -> det wit (f v) D w -> det wit (gbind p f) D w.
  Proof.
    unfold det. destruct wit; intros H K.
    - intros HD s. destruct (H I s) as (s' & E). rewrite sim_bind, E. exact (K HD s').
    - intros r. rewrite holds_bind. split.
      + intros (x & Hx & Hr). apply H in Hx. destruct Hx as [_ ->]. now apply K in Hr.
      + intros [HD ->]. exists v. split; [apply H; auto|]. apply K. auto.
  Qed.
  Lemma det_iff {A : Type} (p : G F F A) C D v : det wit p C v -> (C <-> D) -> det wit p D v.
  Proof. unfold det. destruct wit; intros H K; [intros X; apply H, K, X|]. intros r. rewrite H, K. tauto. Qed.
  Lemma det_val {A : Type} (p : G F F A) C v v' : det wit p C v -> (C -> v = v') -> det wit p C v'.
  Proof.
    unfold det. destruct wit; intros H K; [intros X; rewrite <- K by exact X; apply H, X|].
    intros r. rewrite H. split; intros [X ->]; split; auto. symmetry. auto.
  Qed.
  Lemma det_okr {A : Type} (p : G F F A) C v : det wit p C v -> C -> okr wit p v.
  Proof. unfold det, okr. destruct wit; intros H K; [exact (H K)|]. apply H. auto. Qed.
  Lemma okr_bind {A B : Type} (p : G F F A) (f : A -> G F F B) v w : okr wit p v -> okr wit (f v) w -> okr wit (gbind p f) w.
  Proof.
    unfold okr. destruct wit; intros H K; [|apply holds_bind; eauto].
    intros s. destruct (H s) as (s' & E). rewrite sim_bind, E. apply K.
  Qed.
  Lemma okr_ret {A : Type} (v : A) : okr wit (GRet v : G F F A) v.
  Proof. exact (det_okr _ _ _ (det_ret v) I). Qed.

  (** some outcome satisfies [Q] *)
  Definition okx {A : Type} (p : G F F A) (Q : A -> Prop) : Prop := exists v, Q v /\ okr wit p v.
  Lemma okx_bind {A B : Type} (p : G F F A) (f : A -> G F F B) v Q : okr wit p v -> okx (f v) Q -> okx (gbind p f) Q.
  Proof. intros H (w & HQ & K). exists w. split; [exact HQ|]. exact (okr_bind _ _ _ _ H K). Qed.

  Lemma dd_equal (a b : F) : det wit (g_equal F F a b) (a = b) tt.
  Proof. unfold det. destruct wit; [intros H s; rewrite equal_s by exact H; eauto|]. intros r. apply equal_w. Qed.
  Lemma dd_eequal (a b : F) : det wit (e_equal F F (e a) (e b)) (a = b) tt.
  Proof. unfold e_equal. replace (ew F F (e a)) with a by now destruct wit. replace (ew F F (e b)) with b by now destruct wit. apply dd_equal. Qed.
  Lemma dd_esequal (a : list F) : forall b, length a = length b -> det wit (es_equal F F (map e a) (map e b)) (a = b) tt.
  Proof.
    induction a as [|x a IH]; intros [|y b] L; try discriminate; cbn [map es_equal].
    - eapply det_iff; [apply det_ret|tauto].
    - eapply det_iff; [eapply det_bind; [apply dd_eequal|intros _; apply IH; cbn in L; lia]|].
      split; [intros [-> ->]; auto|]. intros E. inversion E. auto.
  Qed.
  Lemma dd_invert (a : F) : det wit (e_invert F F 1 (e a)) (a <> 0) (e (finv a)).
  Proof.
    unfold det, el. destruct wit; [|intros r; apply e_invert_w].
    intros H s. rewrite e_invert_s, (proj2 (feqb_false F _ _) H). eauto.
  Qed.
  Lemma dd_root k (a : F) : det wit (e_root_of_unity F F 1 wit (e a) k) (a ^ (2 ^ k) = 1) tt.
  Proof.
    unfold det, el. destruct wit; [|intros r; apply e_root_w].
    intros H s. rewrite e_root_s, (proj2 (feqb_true F _ _) H). eauto.
  Qed.
  Lemma dd_cf (mu nu : F) : det wit (cf_new 1 (e mu) (e nu)) (mu <> 0) (mk_cfolder (e (mu * nu)) (e (finv mu))).
  Proof.
    unfold det, el. destruct wit; [|intros r; apply cf_new_w].
    intros H s. rewrite cf_new_s, (proj2 (feqb_false F _ _) H). eauto.
  Qed.
  Lemma dd_fold n (mn mi : F) errs ky : length errs = num_error_terms n -> length ky = n ->
    det wit (fold_products 1 wit n (mk_cfolder (e mn) (e mi)) (map e errs) (map e ky)) True (e (weigh n mi mn (entry n errs ky))).
  Proof.
    intros A B. unfold det, el. destruct wit; [|intros r; rewrite fold_products_w by assumption; tauto].
    intros _ s. rewrite fold_products_s by assumption. eauto.
  Qed.
  Lemma dd_is_equal (a b : F) : det wit (e_is_equal F F 1 (e a) (e b)) True (bel wit (feqb a b)).
  Proof.
    unfold det, el, bel. destruct wit; [|intros r; rewrite e_is_equal_w; tauto].
    intros _ s. rewrite e_is_equal_s. eauto.
  Qed.
  Lemma dd_and (a b : bool) : det wit (b_and F F (bel wit a) (bel wit b)) True (bel wit (andb a b)).
  Proof.
    unfold det, bel. destruct wit; [intros _ s; rewrite b_and_s; eauto|].
    intros r. rewrite b_and_w. replace (fe F a * fe F b) with (fe F (a && b)); [tauto|]. destruct a, b; cbn; ring.
  Qed.
  Lemma dd_not (a : bool) : det wit (b_not F F 1 (bel wit a)) True (bel wit (negb a)).
  Proof.
    unfold det, bel. destruct wit; [intros _ s; rewrite b_not_s; eauto|].
    intros r. rewrite b_not_w. replace (1 - fe F a) with (fe F (negb a)); [tauto|]. destruct a; cbn; ring.
  Qed.
  Lemma dd_cond (c : bool) (a b : F) : det wit (b_cond_equal F F (bel wit c) (e a) (e b)) (c = true -> a = b) tt.
  Proof.
    unfold det, bel, el. destruct wit.
    - intros H s. rewrite b_cond_equal_s. destruct c; cbn [implb]; [|eauto]. rewrite (proj2 (feqb_true F _ _) (H eq_refl)). eauto.
    - intros r. rewrite b_cond_equal_w. split; intros [H ->]; split; auto.
      + intros ->. apply fsub_eq_0. rewrite <- H. cbn. ring.
      + destruct c; cbn [fe]; [rewrite (H eq_refl)|]; ring.
  Qed.
  Lemma dd_write (p : F) acc (v : F) : det wit (hz_write (e p) (option_map e acc) (e v)) True (option_map e (Some (hzv p acc v))).
  Proof.
    unfold det, el. destruct wit; [|intros r; rewrite hz_write_w; cbn [option_map]; tauto].
    intros _ s. rewrite hz_write_s. eauto.
  Qed.
  Lemma dd_finish (acc : option F) : det wit (hz_finish 1 wit (option_map e acc)) True (e (orz acc)).
  Proof.
    unfold det, el. destruct wit; [|intros r; rewrite hz_finish_w; tauto]. intros _ s. rewrite hz_finish_s. eauto.
  Qed.
  Lemma dd_writes (p : F) vs : forall acc, det wit (hz_writes F F (e p) (option_map e acc) (map e vs)) True (option_map e (hzs p vs acc)).
  Proof.
    induction vs as [|v vs IH]; intros acc; cbn [map hz_writes]; [apply det_ret|].
    eapply det_bindt; [apply dd_write|]. apply (IH (Some (hzv p acc v))).
  Qed.
  (** the Horner accumulator is the polynomial's value *)
  Lemma hzs_hfold (p : F) vs : orz (hzs p vs None) = hfold (length vs) p (fun i => nth i vs 0).
  Proof. rewrite hzs_val. destruct vs; reflexivity. Qed.
  Lemma hzs_peval (p : F) vs : forall acc, orz (hzs p vs (Some acc)) = acc * p ^ length vs + peval (rev vs) p.
  Proof.
    induction vs as [|v vs IH]; intros acc; cbn [hzs fold_left]; [cbn; ring|].
    change (fold_left (fun a t => Some (hzv p a t)) vs (Some (hzv p (Some acc) v))) with (hzs p vs (Some (hzv p (Some acc) v))).
    rewrite IH. cbn [hzv rev length fpow]. rewrite peval_app, rev_length. cbn [peval]. ring.
  Qed.
  Lemma hzs_peval0 (p : F) vs : orz (hzs p vs None) = peval (rev vs) p.
  Proof.
    destruct vs as [|v vs]; [reflexivity|]. cbn [hzs fold_left].
    change (fold_left (fun a t => Some (hzv p a t)) vs (Some (hzv p None v))) with (hzs p vs (Some v)).
    rewrite hzs_peval. cbn [rev]. rewrite peval_app, rev_length. cbn [peval]. ring.
  Qed.
  Lemma hzs_app (p : F) vs ws acc : hzs p (vs ++ ws) acc = hzs p ws (hzs p vs acc).
  Proof. unfold hzs. apply fold_left_app. Qed.
  Lemma dd_finish_ky (p : F) acc : det wit (hz_finish_ky F F 1 wit (e p) (option_map e acc)) True (e (orz (hzs p [1] acc))).
  Proof.
    unfold hz_finish_ky. rewrite r_one. eapply det_bindt; [apply dd_write|]. apply (dd_finish (Some (hzv p acc 1))).
  Qed.
  Lemma k_of_hzs (p : F) vs : orz (hzs p (vs ++ [1]) None) = k_of vs p.
  Proof. rewrite hzs_peval0, rev_app_distr. reflexivity. Qed.

  Lemma dd_txz k (x z : F) : det wit (txz_routine F F 1 k (e x) (e z)) (x <> 0 /\ z <> 0) (e (t_spec F (2 ^ k) x z)).
  Proof.
    unfold det, txz_routine, el. destruct wit.
    - intros [A B] s. cbn [hon ev lift2 try_just fst snd]. unfold inv_opt.
      rewrite (proj2 (feqb_false F _ _) A), (proj2 (feqb_false F _ _) B). cbn [gbind].
      change (mk_elem F F x (Some x)) with (hon x). change (mk_elem F F z (Some z)) with (hon z).
      rewrite execute_s by assumption. eauto.
    - intros r. cbn [wir ev lift2 try_just gbind]. change (mk_elem F F x None) with (wir x). change (mk_elem F F z None) with (wir z).
      rewrite execute_w. tauto.
  Qed.
  Lemma dd_consistent (cb : F) (p : F * F) : det wit (p_consistent F F 1 cb (pel wit p)) (on_curve cb p) tt.
  Proof.
    destruct p as [x y]. unfold p_consistent, pel, el. cbn [fst snd]. destruct wit.
    - intros H s. cbn [px py hon ev lift2 try_just fst snd]. unfold on_curve in H. cbn [fst snd] in H.
      rewrite (proj2 (feqb_true F _ _) H). cbn [gbind]. rewrite sim_bind, p_alloc_s, (proj2 (feqb_true F _ _) H).
      cbn [phon px py hon ew fst snd]. rewrite sim_bind, equal_s by reflexivity. rewrite equal_s by reflexivity. eauto.
    - intros r. cbn [px py wir ev lift2 try_just gbind]. rewrite holds_bind. split.
      + intros (q & Hq & H). apply p_alloc_w in Hq. destruct Hq as ([x' y'] & O & ->). cbn [pwir px py wir ew fst snd] in H.
        rewrite equal_bw, equal_w in H. destruct H as (-> & -> & ->). auto.
      + intros [O ->]. exists (pwir (x, y)). split; [apply p_alloc_w; eauto|]. cbn [pwir px py wir ew fst snd].
        rewrite equal_bw, equal_w. auto.
  Qed.
End Basics.

(** stage values as wires *)
Definition uout_of {F : Field} (wit : bool) (u : uvals F) : uout F F := mk_uout F F (fun p => pel wit (uv_pt u p)) (fun x => el wit (uv_el u x)).
Definition pin_of {F : Field} (wit : bool) (c : pvals F) : pinputs F F :=
  mk_pinputs F F (map (el wit) (pv_left c)) (map (el wit) (pv_right c)) (map (el wit) (pv_out c)) (el wit (pv_cid c)) (uout_of wit (pv_uni c)).
Definition pre_of {F : Field} (wit : bool) (l r : pvals F) : preamble F F := mk_preamble F F (pin_of wit l) (pin_of wit r).
Definition cky_of {F : Field} (wit : bool) (c : child_ky F) : child_ky (elem F F) :=
  mk_child_ky (el wit (ck_application c)) (el wit (ck_unified c)) (el wit (ck_bridge c)).
Definition oe_of {F : Field} (wit : bool) (o : ovals F) : outer_error F F :=
  mk_outer_error F F (map (el wit) (ov_errs o)) (map (el wit) (ov_collapsed o)) (cky_of wit (ov_left o)) (cky_of wit (ov_right o))
                 (map (el wit) (ov_sponge o)).
Definition inst_of {F : Field} (wit : bool) (u : uvals F) (c : coverage) : option (uinst F) :=
  if wit then Some (mk_uinst (fun p => Some (uv_pt u p)) (uv_el u) c) else None.

(** the result of a circuit: outputs, and with witnesses the coverage extended by [set] *)
Definition covered {F : Field} (wit : bool) (out : list F) (cov : coverage) (set : list ufield) (r : list (elem F F) * option coverage) : Prop :=
  fst r = map (el wit) out /\
  if wit then exists c, snd r = Some c /\ forall f, c f = (cov f || existsb (ufield_eqb f) set)%bool else snd r = None.

Section Unified.
  Variable F : Field.
  Add Field FFrn : (f_theory F).
  Open Scope f_scope.
  Variable cb : F.
  Local Notation bld := (ubuilder F F).

  Lemma upt_eqb_spec a b : reflect (a = b) (upt_eqb a b).
  Proof. destruct a, b; cbn; constructor; congruence. Qed.
  Lemma uel_eqb_spec a b : reflect (a = b) (uel_eqb a b).
  Proof. destruct a, b; cbn; constructor; congruence. Qed.
  Lemma ufield_eqb_spec a b : reflect (a = b) (ufield_eqb a b).
  Proof.
    destruct a as [p|x], b as [q|y]; cbn; try (constructor; congruence).
    - destruct (upt_eqb_spec p q); constructor; congruence.
    - destruct (uel_eqb_spec x y); constructor; congruence.
  Qed.
  Lemma uall_nodup : NoDup uall.
  Proof. unfold uall. repeat (constructor; [cbn; intuition discriminate|]). constructor. Qed.
  Lemma uall_all f : In f uall.
  Proof. destruct f as [[]|[]]; cbn; tauto. Qed.

  (** builder slots against an instance *)
  Definition agree_f (wit : bool) (b : bld) (u : uvals F) (f : ufield) : Prop :=
    match f with
    | FP p => match sl_value (ub_pt b p) with Some x => x = pel wit (uv_pt u p) | None => on_curve cb (uv_pt u p) end
    | FE x => match sl_value (ub_el b x) with Some y => y = el wit (uv_el u x) | None => True end
    end.

  Lemma alloc_pt_w (b : bld) f r : ub_inst b = None ->
    (holds (alloc_pt F F 1 cb b f) r <-> exists p, on_curve cb p /\ r = pel false p).
  Proof. intros H. unfold alloc_pt. rewrite H. cbn [lift1 option_map]. apply p_alloc_w. Qed.
  Lemma alloc_el_w (b : bld) f r : ub_inst b = None -> (holds (alloc_el F F b f) r <-> exists v, r = el false v).
  Proof. intros H. unfold alloc_el. rewrite H. cbn [lift1 option_map]. apply alloc_w. Qed.
  Lemma receive_pt_w (b : bld) f r : sl_value (ub_pt b f) = None -> ub_inst b = None ->
    holds (receive_pt F F 1 cb b f) r ->
    exists p, on_curve cb p /\ r = (pel false p, set_pt b f (mk_slot (Some (pel false p)) true)).
  Proof.
    intros E Hi H. unfold receive_pt in H. rewrite E in H. apply holds_bind in H. destruct H as (x & Hx & H).
    apply alloc_pt_w in Hx; [|exact Hi]. destruct Hx as (p & O & ->). apply ret_w in H. subst r. eauto.
  Qed.
  Lemma receive_el_w (b : bld) f r : sl_value (ub_el b f) = None -> ub_inst b = None ->
    holds (receive_el F F b f) r ->
    exists v, r = (el false v, set_el b f (mk_slot (Some (el false v)) true)).
  Proof.
    intros E Hi H. unfold receive_el in H. rewrite E in H. apply holds_bind in H. destruct H as (x & Hx & H).
    apply alloc_el_w in Hx; [|exact Hi]. destruct Hx as (v & ->). apply ret_w in H. subst r. eauto.
  Qed.
  Lemma read_el_w (b : bld) f r : sl_value (ub_el b f) = None -> ub_inst b = None ->
    holds (read_el F F b f) r ->
    exists v, r = (el false v, set_el b f (mk_slot (Some (el false v)) (sl_set (ub_el b f)))).
  Proof.
    intros E Hi H. unfold read_el in H. rewrite E in H. apply holds_bind in H. destruct H as (x & Hx & H).
    apply alloc_el_w in Hx; [|exact Hi]. destruct Hx as (v & ->). apply ret_w in H. subst r. eauto.
  Qed.
  Lemma provide_el_w (b : bld) f v r : sl_value (ub_el b f) = None ->
    holds (provide_el F F b f v) r -> r = set_el b f (mk_slot (Some v) true).
  Proof. intros E H. unfold provide_el in H. rewrite E in H. now apply ret_w in H. Qed.

  Definition upd_pt (u : uvals F) (f : upt) (p : F * F) : uvals F := mk_uvals (fun g => if upt_eqb f g then p else uv_pt u g) (uv_el u).
  Definition upd_el (u : uvals F) (f : uel) (v : F) : uvals F := mk_uvals (uv_pt u) (fun g => if uel_eqb f g then v else uv_el u g).
  Lemma u_values_upd_pt u f p : forall fs, ~ In (FP f) fs -> u_values (upd_pt u f p) fs = u_values u fs.
  Proof.
    induction fs as [|g fs IH]; intros N; [reflexivity|]. unfold u_values in *. cbn [flat_map]. rewrite IH by (cbn in N; tauto).
    destruct g as [g|g]; [|reflexivity]. cbn [upd_pt uv_pt]. destruct (upt_eqb_spec f g) as [->|]; [|reflexivity].
    exfalso. apply N. now left.
  Qed.
  Lemma u_values_upd_el u f p : forall fs, ~ In (FE f) fs -> u_values (upd_el u f p) fs = u_values u fs.
  Proof.
    induction fs as [|g fs IH]; intros N; [reflexivity|]. unfold u_values in *. cbn [flat_map]. rewrite IH by (cbn in N; tauto).
    destruct g as [g|g]; [reflexivity|]. cbn [upd_el uv_el]. destruct (uel_eqb_spec f g) as [->|]; [|reflexivity].
    exfalso. apply N. now left.
  Qed.
  (** every slot filled so far holds the wires of some values *)
  Definition slots_el (b : bld) : Prop :=
    (forall f x, sl_value (ub_pt b f) = Some x -> exists p, x = pel false p) /\
    (forall f x, sl_value (ub_el b f) = Some x -> exists v, x = el false v).
  Lemma take_fwd (b : bld) : ub_inst b = None -> slots_el b -> forall fs r, NoDup fs ->
    holds (take_all F F 1 cb b fs) r ->
    exists u, (forall f, In f fs -> agree_f false b u f) /\ r = map (el false) (u_values u fs).
  Proof.
    intros Hi [Sp Se]. induction fs as [|f fs IH]; intros r N H.
    - apply ret_w in H. subst r. exists (mk_uvals (fun _ => (0, 0)) (fun _ => 0)). cbn. tauto.
    - inversion N as [|? ? N1 N2]; subst. destruct f as [f|f]; cbn [take_all] in H; apply holds_bind in H; destruct H as (x & Hx & H);
        apply holds_bind in H; destruct H as (t & Ht & H); apply ret_w in H; subst r;
        destruct (IH t N2 Ht) as (u & A & ->).
      + assert (P : exists p, x = pel false p /\ (sl_value (ub_pt b f) = None -> on_curve cb p) /\ (forall y, sl_value (ub_pt b f) = Some y -> y = x)).
        { destruct (sl_value (ub_pt b f)) as [y|] eqn:E.
          - apply ret_w in Hx. subst x. destruct (Sp _ _ E) as (p & ->). exists p. split; auto. split; [discriminate|]. intros ? [= <-]. reflexivity.
          - apply alloc_pt_w in Hx; [|exact Hi]. destruct Hx as (p & O & ->). exists p. split; auto. split; auto. discriminate. }
        destruct P as (p & -> & P1 & P2). exists (upd_pt u f p). split.
        * intros g [<-|G].
          -- cbn [agree_f]. destruct (sl_value (ub_pt b f)) as [y|]; cbn [upd_pt uv_pt]; destruct (upt_eqb_spec f f); try congruence; auto.
          -- specialize (A g G). destruct g as [g|g]; cbn [agree_f] in *; [|exact A]. cbn [upd_pt uv_pt].
             destruct (upt_eqb_spec f g) as [->|]; [contradiction|exact A].
        * change (u_values (upd_pt u f p) (FP f :: fs)) with ([fst (uv_pt (upd_pt u f p) f); snd (uv_pt (upd_pt u f p) f)] ++ u_values (upd_pt u f p) fs).
          rewrite u_values_upd_pt by exact N1. rewrite map_app. cbn [upd_pt uv_pt]. destruct (upt_eqb_spec f f); [reflexivity|congruence].
      + assert (P : exists v, x = el false v /\ (forall y, sl_value (ub_el b f) = Some y -> y = x)).
        { destruct (sl_value (ub_el b f)) as [y|] eqn:E.
          - apply ret_w in Hx. subst x. destruct (Se _ _ E) as (p & ->). exists p. split; auto. intros ? [= <-]. reflexivity.
          - apply alloc_el_w in Hx; [|exact Hi]. destruct Hx as (p & ->). exists p. split; auto. discriminate. }
        destruct P as (p & -> & P2). exists (upd_el u f p). split.
        * intros g [<-|G].
          -- cbn [agree_f]. destruct (sl_value (ub_el b f)) as [y|]; cbn [upd_el uv_el]; destruct (uel_eqb_spec f f); try congruence; auto.
          -- specialize (A g G). destruct g as [g|g]; cbn [agree_f] in *; [exact A|]. cbn [upd_el uv_el].
             destruct (uel_eqb_spec f g) as [->|]; [contradiction|exact A].
        * change (u_values (upd_el u f p) (FE f :: fs)) with (uv_el (upd_el u f p) f :: u_values (upd_el u f p) fs).
          rewrite u_values_upd_el by exact N1. cbn [upd_el uv_el map]. destruct (uel_eqb_spec f f); [reflexivity|congruence].
  Qed.
  Lemma finish_ns_fwd (b : bld) r : ub_inst b = None -> slots_el b -> holds (finish_no_suffix F F 1 cb b) r ->
    exists u, (forall f, agree_f false b u f) /\ r = (map (el false) (u_write u), None).
  Proof.
    intros Hi S H. unfold finish_no_suffix in H. apply holds_bind in H. destruct H as (x & Hx & H). rewrite Hi in H. apply ret_w in H.
    destruct (take_fwd b Hi S uall x uall_nodup Hx) as (u & A & ->). exists u. split; [|exact H]. intros f. apply A, uall_all.
  Qed.
  Lemma finish_fwd (b : bld) r : ub_inst b = None -> slots_el b -> holds (finish F F 1 false cb b) r ->
    exists u, (forall f, agree_f false b u f) /\ r = (map (el false) (u_write u ++ [0]), None).
  Proof.
    intros Hi S H. unfold finish in H. rewrite e_zero_bw in H. apply holds_bind in H. destruct H as (x & Hx & H).
    destruct (finish_ns_fwd b x Hi S Hx) as (u & A & ->). exists u. split; [exact A|]. apply ret_w in H. subst r.
    cbn [fst snd]. now rewrite map_app.
  Qed.

  (** ** the other direction, with and without witnesses *)
  Section Bwd.
    Variables (wit : bool) (u : uvals F) (cov : coverage).
    Lemma alloc_pt_ok (b : bld) f : ub_inst b = inst_of wit u cov -> on_curve cb (uv_pt u f) -> okr wit (alloc_pt F F 1 cb b f) (pel wit (uv_pt u f)).
    Proof.
      intros Hi O. unfold alloc_pt. rewrite Hi. unfold inst_of, okr, pel, el. destruct (uv_pt u f) as [x y] eqn:E. destruct wit.
      - intros s. cbn [lift1 option_map ui_pt]. rewrite E, p_alloc_s. unfold on_curve in O. cbn [fst snd] in O.
        rewrite (proj2 (feqb_true F _ _) O). eexists. reflexivity.
      - cbn [lift1 option_map]. apply p_alloc_w. exists (x, y). auto.
    Qed.
    Lemma alloc_el_ok (b : bld) f : ub_inst b = inst_of wit u cov -> okr wit (alloc_el F F b f) (el wit (uv_el u f)).
    Proof.
      intros Hi. unfold alloc_el. rewrite Hi. unfold inst_of, okr, el. destruct wit.
      - intros s. cbn [lift1 option_map ui_el]. rewrite alloc_s. eauto.
      - cbn [lift1 option_map]. apply alloc_w. eauto.
    Qed.
    Lemma receive_pt_ok (b : bld) f : sl_value (ub_pt b f) = None -> ub_inst b = inst_of wit u cov -> on_curve cb (uv_pt u f) ->
      okr wit (receive_pt F F 1 cb b f) (pel wit (uv_pt u f), set_pt b f (mk_slot (Some (pel wit (uv_pt u f))) true)).
    Proof. intros E Hi O. unfold receive_pt. rewrite E. eapply okr_bind; [now apply alloc_pt_ok|apply okr_ret]. Qed.
    Lemma receive_el_ok (b : bld) f : sl_value (ub_el b f) = None -> ub_inst b = inst_of wit u cov ->
      okr wit (receive_el F F b f) (el wit (uv_el u f), set_el b f (mk_slot (Some (el wit (uv_el u f))) true)).
    Proof. intros E Hi. unfold receive_el. rewrite E. eapply okr_bind; [now apply alloc_el_ok|apply okr_ret]. Qed.
    Lemma read_el_ok (b : bld) f : sl_value (ub_el b f) = None -> ub_inst b = inst_of wit u cov ->
      okr wit (read_el F F b f) (el wit (uv_el u f), set_el b f (mk_slot (Some (el wit (uv_el u f))) (sl_set (ub_el b f)))).
    Proof. intros E Hi. unfold read_el. rewrite E. eapply okr_bind; [now apply alloc_el_ok|apply okr_ret]. Qed.
    Lemma provide_el_ok (b : bld) f v : sl_value (ub_el b f) = None -> okr wit (provide_el F F b f v) (set_el b f (mk_slot (Some v) true)).
    Proof. intros E. unfold provide_el. rewrite E. apply okr_ret. Qed.
    Lemma take_ok (b : bld) : ub_inst b = inst_of wit u cov -> (forall f, agree_f wit b u f) -> forall fs,
      okr wit (take_all F F 1 cb b fs) (map (el wit) (u_values u fs)).
    Proof.
      intros Hi A. induction fs as [|f fs IH]; [apply okr_ret|]. pose proof (A f) as Af. destruct f as [f|f]; cbn [take_all].
      - change (u_values u (FP f :: fs)) with ([fst (uv_pt u f); snd (uv_pt u f)] ++ u_values u fs). rewrite map_app.
        apply okr_bind with (v := pel wit (uv_pt u f)); [|eapply okr_bind; [exact IH|apply okr_ret]].
        cbn [agree_f] in Af. destruct (sl_value (ub_pt b f)) as [x|]; [subst x; apply okr_ret|now apply alloc_pt_ok].
      - change (u_values u (FE f :: fs)) with (uv_el u f :: u_values u fs). cbn [map].
        apply okr_bind with (v := el wit (uv_el u f)); [|eapply okr_bind; [exact IH|apply okr_ret]].
        cbn [agree_f] in Af. destruct (sl_value (ub_el b f)) as [x|]; [subst x; apply okr_ret|now apply alloc_el_ok].
    Qed.
    Lemma cover_ok (b : bld) : forall fs c, NoDup fs -> (forall f, In f fs -> was_set b f = true -> c f = false) ->
      exists c', cover_all b fs c = Some c' /\ forall g, c' g = (c g || (existsb (ufield_eqb g) fs && was_set b g))%bool.
    Proof.
      induction fs as [|f fs IH]; intros c N H.
      - exists c. split; [reflexivity|]. intros g. cbn. now rewrite orb_false_r.
      - inversion N as [|? ? N1 N2]; subst. cbn [cover_all]. destruct (was_set b f) eqn:E.
        + rewrite (H f (or_introl eq_refl) E). destruct (IH (fun g => if ufield_eqb f g then true else c g) N2) as (c' & E' & Q).
          { intros g G S. destruct (ufield_eqb_spec f g) as [->|]; [contradiction|]. apply H; [now right|exact S]. }
          exists c'. split; [exact E'|]. intros g. rewrite Q. cbn [existsb].
          destruct (ufield_eqb_spec f g) as [->|D].
          * destruct (ufield_eqb_spec g g); [|congruence]. rewrite E. cbn. now rewrite orb_true_r.
          * destruct (ufield_eqb_spec g f); [congruence|]. reflexivity.
        + destruct (IH c N2) as (c' & E' & Q). { intros g G. apply H. now right. }
          exists c'. split; [exact E'|]. intros g. rewrite Q. cbn [existsb]. destruct (ufield_eqb_spec g f) as [->|]; [|reflexivity].
          rewrite E, !andb_false_r. reflexivity.
    Qed.
    Lemma existsb_uall g : existsb (ufield_eqb g) uall = true.
    Proof. apply existsb_exists. exists g. split; [apply uall_all|]. now destruct (ufield_eqb_spec g g). Qed.
    Lemma finish_ns_ok (b : bld) set : ub_inst b = inst_of wit u cov -> (forall f, agree_f wit b u f) ->
      (forall f, was_set b f = existsb (ufield_eqb f) set) -> (forall f, In f set -> cov f = false) ->
      okx F wit (finish_no_suffix F F 1 cb b) (covered wit (u_write u) cov set).
    Proof.
      intros Hi A Hs Hc. destruct (cover_ok b uall cov uall_nodup) as (c' & E & Q).
      { intros f _ S. rewrite Hs in S. apply existsb_exists in S. destruct S as (g & G & S). destruct (ufield_eqb_spec f g); [subst; auto|discriminate]. }
      exists (map (el wit) (u_write u), if wit then Some c' else None). split.
      - split; [reflexivity|]. destruct wit; [|reflexivity]. exists c'. split; [reflexivity|]. intros f. now rewrite Q, existsb_uall, Hs.
      - unfold finish_no_suffix. eapply okr_bind; [now apply take_ok|]. rewrite Hi. unfold inst_of. destruct wit.
        + cbn [ui_cov]. rewrite E. apply okr_ret.
        + apply okr_ret.
    Qed.
    Lemma finish_ok (b : bld) set : ub_inst b = inst_of wit u cov -> (forall f, agree_f wit b u f) ->
      (forall f, was_set b f = existsb (ufield_eqb f) set) -> (forall f, In f set -> cov f = false) ->
      okx F wit (finish F F 1 wit cb b) (covered wit (u_write u ++ [0]) cov set).
    Proof.
      intros Hi A Hs Hc. destruct (finish_ns_ok b set Hi A Hs Hc) as (r & [Q1 Q2] & H). unfold finish.
      eapply okx_bind; [exact (det_okr _ _ _ _ _ (det_runs _ _ _ _ _ _ (r_zero F wit)) I)|]. eapply okx_bind; [exact H|].
      exists (fst r ++ [el wit 0], snd r). split; [|apply okr_ret]. split; [|exact Q2]. cbn [fst]. now rewrite Q1, map_app.
    Qed.
  End Bwd.
End Unified.
