(** Genericity of the sponge, the folding gadgets, the endoscaling step, the step
    adapters and the recursion circuits. *)
From Coq Require Import List Arith NArith ZArith Bool Lia.
From Verif Require Import FieldDef ArithModel ArithSpec GadgetModel SpongeModel FoldModel EscModel PcdModel AppModel RecModel
  ParSpec ParProofs AppSpec AppProofs.
Import ListNotations.
Local Open Scope nat_scope.
Local Open Scope g_scope.

Lemma Forall2_repeat {A B : Type} (R : A -> B -> Prop) a b n : R a b -> Forall2 R (repeat a n) (repeat b n).
Proof. intros; induction n; simpl; constructor; auto. Qed.
Lemma Forall2_rev {A B : Type} (R : A -> B -> Prop) l1 l2 : Forall2 R l1 l2 -> Forall2 R (rev l1) (rev l2).
Proof. induction 1; simpl; auto. apply Forall2_app; auto. Qed.
Lemma Forall2_nth_error {A B : Type} (R : A -> B -> Prop) l1 l2 : Forall2 R l1 l2 -> forall i, orel R (nth_error l1 i) (nth_error l2 i).
Proof. induction 1; intros [|i]; simpl; constructor || auto; assumption. Qed.
Lemma Forall2_map_fst {A B A' B' : Type} (R : A -> A' -> Prop) (S : B -> B' -> Prop) l1 l2 :
  Forall2 (prel R S) l1 l2 -> Forall2 R (map fst l1) (map fst l2).
Proof. induction 1; simpl; constructor; auto. apply H. Qed.
Lemma Forall2_map_snd {A B A' B' : Type} (R : A -> A' -> Prop) (S : B -> B' -> Prop) l1 l2 :
  Forall2 (prel R S) l1 l2 -> Forall2 S (map snd l1) (map snd l2).
Proof. induction 1; simpl; constructor; auto. apply H. Qed.
#[global] Hint Resolve Forall2_repeat Forall2_rev Forall2_map_fst Forall2_map_snd : par.

Section Sponge.
  Context {F : Field} {W1 W2 : Type} {one1 : W1} {one2 : W2}.
  Context {RW : W1 -> W2 -> Prop} {hv : bool}.
  Hypothesis Hone : RW one1 one2.
  Context {wit1 wit2 : bool}.
  Hypothesis Hwit : wrel hv wit1 wit2.
  Variable P : pparams F.
  Local Notation er := (erel (F := F) RW hv).
  Local Notation es := (Forall2 er).
  Local Notation sr := (sprel (F := F) RW hv).
  Local Notation GR := (grel (F := F) RW hv).

  Lemma sbox_p l1 l2 : es l1 l2 -> GR es (sbox F W1 P l1) (sbox F W2 P l2).
  Proof. induction 1; cbn [sbox]; [gp|]. destruct (Z.eqb _ _); gp. Qed.
  Lemma mds_rows_p rows l1 l2 : es l1 l2 -> GR es (mds_rows F W1 wit1 l1 rows) (mds_rows F W2 wit2 l2 rows).
  Proof. intros; induction rows; cbn [mds_rows]; gp. Qed.
  Hint Resolve sbox_p mds_rows_p : par.
  Lemma mds_p l1 l2 : es l1 l2 -> GR es (mds F W1 wit1 P l1) (mds F W2 wit2 P l2).
  Proof. intros; unfold mds. rewrite (Forall2_length H). destruct (Nat.eqb _ _); gp. Qed.
  Lemma add_rcs_p l1 l2 : es l1 l2 -> forall rc, GR es (add_rcs F W1 one1 wit1 l1 rc) (add_rcs F W2 one2 wit2 l2 rc).
  Proof. induction 1; intros [|c rc]; cbn [add_rcs]; gp. Qed.
  Hint Resolve mds_p add_rcs_p : par.
  Lemma add_round_constants_p l1 l2 rc : es l1 l2 ->
    GR es (add_round_constants F W1 one1 wit1 l1 rc) (add_round_constants F W2 one2 wit2 l2 rc).
  Proof. intros; unfold add_round_constants. rewrite (Forall2_length H). destruct (Nat.eqb _ _); gp. Qed.
  Hint Resolve add_round_constants_p : par.
  Lemma round_p l1 l2 k rc : es l1 l2 -> GR es (round F W1 one1 wit1 P l1 k rc) (round F W2 one2 wit2 P l2 k rc).
  Proof. intros; unfold round. gp1. rewrite (Forall2_length H0). destruct (Nat.leb _ _); gp. Qed.
  Hint Resolve round_p : par.
  Lemma rounds_p plan : forall rcs l1 l2, es l1 l2 ->
    GR es (rounds F W1 one1 wit1 P l1 plan rcs) (rounds F W2 one2 wit2 P l2 plan rcs).
  Proof. induction plan; intros [|rc rcs] l1 l2 H; cbn [rounds]; gp. Qed.
  Lemma permutation_p l1 l2 : es l1 l2 -> GR es (permutation F W1 one1 wit1 P l1) (permutation F W2 one2 wit2 P l2).
  Proof. apply rounds_p. Qed.

  Variables (perm1 : list (elem F W1) -> G F W1 (list (elem F W1))) (perm2 : list (elem F W2) -> G F W2 (list (elem F W2))).
  Hypothesis Hperm : forall l1 l2, es l1 l2 -> GR es (perm1 l1) (perm2 l2).
  Lemma get_rate_p l1 l2 : es l1 l2 -> es (get_rate F W1 P l1) (get_rate F W2 P l2).
  Proof. intros; unfold get_rate; eauto with par. Qed.
  Hint Resolve get_rate_p : par.
  Lemma sp_new_p : GR sr (sp_new F W1 one1 wit1 P) (sp_new F W2 one2 wit2 P).
  Proof. unfold sp_new; gp. Qed.
  Lemma add_values_p s1 s2 : es s1 s2 -> forall v1 v2, es v1 v2 -> GR es (add_values F W1 s1 v1) (add_values F W2 s2 v2).
  Proof. induction 1; intros v1 v2 Hv; destruct Hv; cbn [add_values]; gp. Qed.
  Hint Resolve add_values_p : par.
  Lemma sp_permute_p m1 m2 : sr m1 m2 -> GR sr (sp_permute F W1 P perm1 m1) (sp_permute F W2 P perm2 m2).
  Proof. destruct 1; unfold sp_permute; gp. Qed.
  Hint Resolve sp_permute_p : par.
  Lemma sp_values_p m1 m2 : sr m1 m2 -> es (sp_values F W1 m1) (sp_values F W2 m2).
  Proof. destruct 1; assumption. Qed.
  Lemma sp_state_p m1 m2 : sr m1 m2 -> es (sp_state F W1 m1) (sp_state F W2 m2).
  Proof. destruct 1; assumption. Qed.
  Hint Resolve sp_state_p : par.
  Lemma sp_squeeze_go_p fuel : forall m1 m2, sr m1 m2 ->
    GR (srel eq (prel er sr)) (sp_squeeze_go F W1 P perm1 fuel m1) (sp_squeeze_go F W2 P perm2 fuel m2).
  Proof.
    induction fuel; intros m1 m2 H; [apply gr_err|]. pose proof H as H'. destruct H; cbn [sp_squeeze_go].
    - pose proof (Forall2_rev _ _ _ H) as Hr. destruct Hr; gp.
    - destruct H; gp.
  Qed.
  Lemma sp_squeeze_p m1 m2 : sr m1 m2 ->
    GR (srel eq (prel er sr)) (sp_squeeze F W1 P perm1 m1) (sp_squeeze F W2 P perm2 m2).
  Proof. apply sp_squeeze_go_p. Qed.
  Lemma sp_absorb_go_p fuel : forall m1 m2 v1 v2, sr m1 m2 -> er v1 v2 ->
    GR sr (sp_absorb_go F W1 P perm1 fuel m1 v1) (sp_absorb_go F W2 P perm2 fuel m2 v2).
  Proof.
    induction fuel; intros m1 m2 v1 v2 H Hv; [apply gr_err|]. pose proof H as H'.
    assert (HR : forall a b, sr a b -> GR sr (m'' <- sp_absorb_go F W1 P perm1 fuel a v1 ;;
                        match sp_values F W1 m'' with [] => GErr | _ => GRet m'' end)
              (m'' <- sp_absorb_go F W2 P perm2 fuel b v2 ;; match sp_values F W2 m'' with [] => GErr | _ => GRet m'' end)).
    { intros. gp1. destruct (sp_values_p _ _ H1); gp. }
    destruct H; cbn [sp_absorb_go].
    - apply HR. eauto with par.
    - rewrite (Forall2_length H). destruct (Nat.eqb _ _); [|gp]. gp1. apply HR; assumption.
  Qed.
  Lemma sp_absorb_p m1 m2 v1 v2 : sr m1 m2 -> er v1 v2 ->
    GR sr (sp_absorb F W1 P perm1 m1 v1) (sp_absorb F W2 P perm2 m2 v2).
  Proof. apply sp_absorb_go_p. Qed.
  Hint Resolve sp_absorb_p sp_squeeze_p : par.
  Lemma sp_save_p m1 m2 : sr m1 m2 -> GR (srel eq es) (sp_save F W1 P perm1 m1) (sp_save F W2 P perm2 m2).
  Proof.
    intros H. pose proof H as H'. destruct H; unfold sp_save; [gp|]. destruct H; [gp|]. gp1. destruct H2; gp.
  Qed.
  Lemma sp_resume_p s1 s2 : es s1 s2 -> sr (sp_resume F W1 P s1) (sp_resume F W2 P s2).
  Proof. intros; unfold sp_resume; eauto with par. Qed.
  Variable of_u : N -> F.
  Lemma absorb_constants_p vs : forall m1 m2, sr m1 m2 ->
    GR sr (absorb_constants F W1 one1 wit1 P perm1 vs m1) (absorb_constants F W2 one2 wit2 P perm2 vs m2).
  Proof. induction vs; intros; cbn [absorb_constants]; gp. Qed.
  Hint Resolve sp_new_p absorb_constants_p : par.
  Lemma tr_new_p tag : GR sr (tr_new F W1 one1 wit1 P perm1 of_u tag) (tr_new F W2 one2 wit2 P perm2 of_u tag).
  Proof. unfold tr_new; gp. Qed.
  Lemma tr_challenge_p m1 m2 : sr m1 m2 ->
    GR (srel eq (prel er sr)) (tr_challenge F W1 P perm1 m1) (tr_challenge F W2 P perm2 m2).
  Proof. apply sp_squeeze_p. Qed.
  Definition rsrel (a : resumed F W1) (b : resumed F W2) : Prop :=
    sr (rs_sponge _ _ a) (rs_sponge _ _ b) /\ rs_squeezed _ _ a = rs_squeezed _ _ b.
  Lemma tr_resume_p s1 s2 : es s1 s2 -> rsrel (tr_resume F W1 P s1) (tr_resume F W2 P s2).
  Proof. split; [apply sp_resume_p; assumption|reflexivity]. Qed.
  Lemma rs_challenge_p a b : rsrel a b ->
    GR (srel eq (prel er rsrel)) (rs_challenge F W1 P perm1 a) (rs_challenge F W2 P perm2 b).
  Proof.
    intros [Hs Hq]; unfold rs_challenge. gp1. destruct H; [gp|]. destruct b0, b'. destruct H; cbn [fst snd] in *.
    apply gr_ret. constructor. repeat split; assumption || reflexivity || apply H.
  Qed.
  Lemma rs_into_p a b : rsrel a b -> GR sr (rs_into F W1 a) (rs_into F W2 b).
  Proof. intros [Hs Hq]; unfold rs_into. rewrite Hq. destruct (rs_squeezed _ _ b); gp. Qed.
  Inductive soprel : sop F W1 -> sop F W2 -> Prop :=
  | so_absorb e e' : er e e' -> soprel (OAbsorb e) (OAbsorb e')
  | so_squeeze : soprel OSqueeze OSqueeze
  | so_save : soprel OSaveResume OSaveResume.
  Lemma sp_run_p o1 o2 : Forall2 soprel o1 o2 -> forall m1 m2, sr m1 m2 ->
    GR (srel eq (prel es sr)) (sp_run F W1 P perm1 o1 m1) (sp_run F W2 P perm2 o2 m2).
  Proof.
    induction 1; intros; cbn [sp_run].
    - apply gr_ret. constructor. split; [constructor|assumption].
    - destruct H.
      + gp.
      + gp1. destruct H; [gp|]. destruct b, b'. destruct H; cbn [fst snd] in *.
        gp1. destruct H3; [gp|]. destruct b, b'. destruct H3; cbn [fst snd] in *. apply gr_ret. constructor. split; cbn; auto.
      + eapply gbind_p; [eapply sp_save_p; eassumption|intros]. destruct H; [gp|]. apply IHForall2. apply sp_resume_p; assumption.
  Qed.
End Sponge.
#[global] Hint Resolve permutation_p sp_new_p sp_absorb_p sp_squeeze_p sp_save_p sp_resume_p tr_new_p tr_challenge_p
  tr_resume_p rs_challenge_p rs_into_p : par.

(** fold_revdot.rs, endoscale.rs, compute_v.rs (claim evaluation) *)
Section Fold.
  Context {F : Field} {W1 W2 : Type} {one1 : W1} {one2 : W2}.
  Context {RW : W1 -> W2 -> Prop} {hv : bool}.
  Hypothesis Hone : RW one1 one2.
  Context {wit1 wit2 : bool}.
  Hypothesis Hwit : wrel hv wit1 wit2.
  Local Notation er := (erel (F := F) RW hv).
  Local Notation pr := (ptrel (F := F) RW hv).
  Local Notation es := (Forall2 er).
  Local Notation GR := (grel (F := F) RW hv).
  Local Notation tr := (fun _ _ : unit => True).

  Lemma hz_write_p p1 p2 a1 a2 v1 v2 : er p1 p2 -> orel er a1 a2 -> er v1 v2 ->
    GR (orel er) (hz_write p1 a1 v1) (hz_write p2 a2 v2).
  Proof. intros Hp Ha Hv; destruct Ha; unfold hz_write; gp. Qed.
  Lemma hz_finish_p a1 a2 : orel er a1 a2 -> GR er (hz_finish one1 wit1 a1) (hz_finish one2 wit2 a2).
  Proof. intros Ha; destruct Ha; unfold hz_finish; gp. Qed.
  Hint Resolve hz_write_p hz_finish_p : par.
  Definition cfrel (c1 : cfolder F W1) (c2 : cfolder F W2) : Prop :=
    er (cf_mu_nu c1) (cf_mu_nu c2) /\ er (cf_mu_inv c1) (cf_mu_inv c2).
  Lemma cf_new_p m1 m2 n1 n2 : er m1 m2 -> er n1 n2 -> GR cfrel (cf_new one1 m1 n1) (cf_new one2 m2 n2).
  Proof. intros; unfold cf_new. gp1. gp1. apply gr_ret. split; assumption. Qed.
  Lemma fp_row_p i js : forall mn1 mn2 e1 e2 k1 k2 a1 a2, er mn1 mn2 -> es e1 e2 -> es k1 k2 -> orel er a1 a2 ->
    GR (prel (orel er) (prel es es)) (fp_row mn1 i js e1 k1 a1) (fp_row mn2 i js e2 k2 a2).
  Proof.
    induction js; intros mn1 mn2 e1 e2 k1 k2 a1 a2 Hm He Hk Ha; cbn [fp_row].
    - apply gr_ret. repeat split; assumption.
    - destruct (i =? a); [destruct Hk|destruct He]; gp.
  Qed.
  Hint Resolve fp_row_p : par.
  Lemma fp_rows_p n is : forall c1 c2 e1 e2 k1 k2 a1 a2, cfrel c1 c2 -> es e1 e2 -> es k1 k2 -> orel er a1 a2 ->
    GR (orel er) (fp_rows one1 wit1 c1 n is e1 k1 a1) (fp_rows one2 wit2 c2 n is e2 k2 a2).
  Proof.
    induction is; intros c1 c2 e1 e2 k1 k2 a1 a2 Hc He Hk Ha; cbn [fp_rows]; [gp|].
    pose proof Hc as [Hc1 Hc2]. gp1. cbn [fst snd]. gp1. gp1. eauto with par.
  Qed.
  Hint Resolve fp_rows_p : par.
  Lemma fold_products_p n c1 c2 e1 e2 k1 k2 : cfrel c1 c2 -> es e1 e2 -> es k1 k2 ->
    GR er (fold_products one1 wit1 n c1 e1 k1) (fold_products one2 wit2 n c2 e2 k2).
  Proof. intros; unfold fold_products; gp. Qed.
  Lemma tl_groups_p m z1 z2 l1 l2 : er z1 z2 -> er l1 l2 -> forall c1 c2, Forall2 es c1 c2 ->
    GR es (tl_groups one1 wit1 m z1 l1 c1) (tl_groups one2 wit2 m z2 l2 c2).
  Proof. induction 3; cbn [tl_groups]; [gp|]. rewrite (Forall2_length H1). gp. Qed.
  Hint Resolve tl_groups_p : par.
  Lemma chunks_go_p {A B : Type} (R : A -> B -> Prop) m fuel : forall l1 l2, Forall2 R l1 l2 ->
    Forall2 (Forall2 R) (chunks_go fuel m l1) (chunks_go fuel m l2).
  Proof.
    induction fuel; intros l1 l2 H; cbn [chunks_go].
    - destruct H; constructor.
    - pose proof H as H'. destruct H; constructor; eauto using Forall2_firstn, Forall2_skipn.
  Qed.
  Lemma chunks_p {A B : Type} (R : A -> B -> Prop) m l1 l2 : Forall2 R l1 l2 ->
    orel (Forall2 (Forall2 R)) (chunks m l1) (chunks m l2).
  Proof.
    intros H; unfold chunks. destruct m; [constructor|]. constructor. rewrite (Forall2_length H). apply chunks_go_p, H.
  Qed.
  Lemma fold_two_layer_p M N s1 s2 l1 l2 k1 k2 : es s1 s2 -> er l1 l2 -> er k1 k2 ->
    GR er (fold_two_layer one1 wit1 M N s1 l1 k1) (fold_two_layer one2 wit2 M N s2 l2 k2).
  Proof.
    intros; unfold fold_two_layer. gp1. destruct (chunks_p er M _ _ H); [gp|]. gp1. rewrite (Forall2_length H4). gp.
  Qed.
  Hint Resolve fold_two_layer_p : par.

  (** endoscale *)
  Variable zeta : F.
  Local Notation nr := (enrel RW hv).
  Lemma esc_loop_p e1 e2 : nr e1 e2 -> forall i1 i2, Forall2 pr i1 i2 -> forall a1 a2 n1 n2, pr a1 a2 -> er n1 n2 ->
    GR (prel pr er) (esc_loop F W1 zeta e1 i1 a1 n1) (esc_loop F W2 zeta e2 i2 a2 n2).
  Proof.
    induction 2; intros; cbn [esc_loop]; [gp|]. gp1.
    eapply gbind_p; [eapply p_add_incomplete_p; eauto with par|intros].
    destruct a0, b0. destruct H5. cbn [fst snd] in *. destruct H6; [gp|]. eauto.
  Qed.
  Lemma pick_p {A B : Type} (R : A -> B -> Prop) l1 l2 is : Forall2 R l1 l2 ->
    orel (Forall2 R) (pick l1 is) (pick l2 is).
  Proof.
    intros H; induction is as [|i is IH]; cbn [pick]; [repeat constructor|].
    destruct (Forall2_nth_error _ _ _ H i); [constructor|]. destruct IH; constructor. constructor; assumption.
  Qed.
  Lemma p_enforce_equal_p p1 p2 q1 q2 : pr p1 p2 -> pr q1 q2 ->
    GR tr (p_enforce_equal F W1 p1 q1) (p_enforce_equal F W2 p2 q2).
  Proof. intros; unfold p_enforce_equal; gp. Qed.
  Hint Resolve esc_loop_p p_enforce_equal_p : par.
  Lemma esc_step_p np step e1 e2 i1 i2 l1 l2 t1 t2 : nr e1 e2 -> pr i1 i2 -> Forall2 pr l1 l2 -> Forall2 pr t1 t2 ->
    GR tr (esc_step F W1 one1 zeta wit1 np step e1 i1 l1 t1) (esc_step F W2 one2 zeta wit2 np step e2 i2 l2 t2).
  Proof.
    intros He Hi Hl Ht; unfold esc_step.
    assert (Ha : orel pr (match step with O => Some i1 | S i => nth_error t1 i end)
                         (match step with O => Some i2 | S i => nth_error t2 i end)).
    { destruct step; [constructor; assumption|apply Forall2_nth_error, Ht]. }
    destruct Ha; [apply gr_err|]. destruct (input_range np step) as [[|i is]|]; [gp| |gp].
    destruct (pick_p pr _ _ (i :: is) Hl); [gp|]. destruct (Forall2_nth_error _ _ _ Ht step); [gp|].
    gp1. cbn [fst snd]. gp.
  Qed.

  (** claims *)
  Inductive clrel : claim (elem F W1) (elem F W1) -> claim (elem F W2) (elem F W2) -> Prop :=
  | cl_raw a b a' b' : er a a' -> er b b' -> clrel (CRaw a b) (CRaw a' b')
  | cl_app i r i' r' : er i i' -> er r r' -> clrel (CApp i r) (CApp i' r')
  | cl_int id l l' : es l l' -> clrel (CInt id l) (CInt id l')
  | cl_bond id l l' : es l l' -> clrel (CBond id l) (CBond id l').
  Variables (z1 : elem F W1) (z2 : elem F W2) (t1 : elem F W1) (t2 : elem F W2) (fr1 : icid -> elem F W1) (fr2 : icid -> elem F W2).
  Hypothesis Hz : er z1 z2. Hypothesis Ht : er t1 t2. Hypothesis Hfr : forall i, er (fr1 i) (fr2 i).
  Lemma ev_claim_p c1 c2 : clrel c1 c2 ->
    GR (prel er er) (ev_claim one1 wit1 z1 t1 fr1 c1) (ev_claim one2 wit2 z2 t2 fr2 c2).
  Proof. destruct 1; cbn [ev_claim]; gp. Qed.
  Hint Resolve ev_claim_p : par.
  Lemma ev_claims_p c1 c2 : Forall2 clrel c1 c2 ->
    GR (Forall2 (prel er er)) (ev_claims one1 wit1 z1 t1 fr1 c1) (ev_claims one2 wit2 z2 t2 fr2 c2).
  Proof.
    induction 1; cbn [ev_claims]; [gp|]. eapply gbind_p; [apply ev_claim_p; assumption|intros].
    eapply gbind_p; [exact IHForall2|intros]. apply gr_ret. constructor; assumption.
  Qed.
  Lemma compute_axbx_p M N s1 s2 a1 a2 b1 b2 c1 c2 d1 d2 : Forall2 clrel (build_claims s1) (build_claims s2) ->
    er a1 a2 -> er b1 b2 -> er c1 c2 -> er d1 d2 ->
    GR (prel er er) (compute_axbx one1 wit1 z1 t1 fr1 M N s1 a1 b1 c1 d1) (compute_axbx one2 wit2 z2 t2 fr2 M N s2 a2 b2 c2 d2).
  Proof.
    intros; unfold compute_axbx. eapply gbind_p; [apply ev_claims_p; assumption|intros]. gp.
  Qed.
End Fold.
#[global] Hint Resolve hz_write_p hz_finish_p cf_new_p fold_products_p fold_two_layer_p esc_step_p : par.

(** step adapters *)
Section App.
  Context {F : Field} {W1 W2 : Type} {one1 : W1} {one2 : W2}.
  Context {RW : W1 -> W2 -> Prop} {hv : bool}.
  Hypothesis Hone : RW one1 one2.
  Context {wit1 wit2 : bool}.
  Hypothesis Hwit : wrel hv wit1 wit2.
  Local Notation er := (erel (F := F) RW hv).
  Local Notation es := (Forall2 er).
  Local Notation GR := (grel (F := F) RW hv).

  Lemma counting_write_p hs s1 s2 v1 v2 : prel es eq s1 s2 -> er v1 v2 ->
    orel (prel es eq) (counting_write F W1 hs s1 v1) (counting_write F W2 hs s2 v2).
  Proof.
    intros [Hs He] Hv; unfold counting_write. destruct hs; [constructor|]. rewrite He. destruct (_ <=? _); constructor.
    split; cbn [fst snd]; [apply Forall2_app; auto|reflexivity].
  Qed.
  Lemma write_all_p hs d1 d2 : es d1 d2 -> forall s1 s2, prel es eq s1 s2 ->
    orel (prel es eq) (write_all F W1 hs d1 s1) (write_all F W2 hs d2 s2).
  Proof.
    induction 1; intros; cbn [write_all]; [constructor; assumption|].
    destruct (counting_write_p hs _ _ _ _ H1 H); cbn; [constructor|]. auto.
  Qed.
  Lemma pad_loop_p hs fuel : forall s1 s2, prel es eq s1 s2 ->
    GR (prel es eq) (pad_loop F W1 one1 wit1 hs fuel s1) (pad_loop F W2 one2 wit2 hs fuel s2).
  Proof.
    induction fuel; intros s1 s2 H; cbn [pad_loop]; [apply gr_ret; assumption|].
    pose proof (proj2 H) as E. rewrite E. destruct (_ <? _); [|apply gr_ret; assumption].
    eapply gbind_p; [apply e_zero_p; assumption|intros]. destruct (counting_write_p hs _ _ _ _ H H0); [gp|]. auto.
  Qed.
  Lemma padded_content_write_p hs d1 d2 b1 b2 : es d1 d2 -> es b1 b2 ->
    GR es (padded_content_write F W1 one1 wit1 hs d1 b1) (padded_content_write F W2 one2 wit2 hs d2 b2).
  Proof.
    intros Hd Hb; unfold padded_content_write. destruct hs; [apply gr_err|].
    assert (H0 : prel es eq (b1, 0) (b2, 0)) by (split; [assumption|reflexivity]).
    destruct (write_all_p (S hs) _ _ Hd _ _ H0); [apply gr_err|].
    eapply gbind_p; [apply pad_loop_p; eassumption|intros]. apply gr_ret, H1.
  Qed.
  Hint Resolve padded_content_write_p : par.
  Lemma padded_write_p hs sfx d1 d2 b1 b2 : es d1 d2 -> es b1 b2 ->
    GR es (padded_write F W1 one1 wit1 hs sfx d1 b1) (padded_write F W2 one2 wit2 hs sfx d2 b2).
  Proof. intros; unfold padded_write. destruct sfx; gp. Qed.
  Hint Resolve padded_write_p : par.
  Local Notation ecr := (ecrel (F := F) RW hv).
  Lemma encoded_write_p hs sfx e1 e2 b1 b2 : ecr e1 e2 -> es b1 b2 ->
    GR es (encoded_write F W1 one1 wit1 hs sfx e1 b1) (encoded_write F W2 one2 wit2 hs sfx e2 b2).
  Proof. intros He Hb; destruct He; unfold encoded_write; gp. Qed.
  Hint Resolve encoded_write_p : par.
  Lemma alloc_all_p v1 v2 : Forall2 (vrel hv) v1 v2 -> GR es (alloc_all F W1 v1) (alloc_all F W2 v2).
  Proof. induction 1; cbn [alloc_all]; gp. Qed.
  Hint Resolve alloc_all_p : par.
  Lemma adapter_write_p hs sl sr so l1 l2 r1 r2 o1 o2 : ecr l1 l2 -> ecr r1 r2 -> ecr o1 o2 ->
    GR es (adapter_write F W1 one1 wit1 hs sl sr so l1 r1 o1) (adapter_write F W2 one2 wit2 hs sl sr so l2 r2 o2).
  Proof.
    intros; unfold adapter_write. gp1. gp1. gp1. rewrite (Forall2_length H4). destruct (_ =? _); gp.
  Qed.
  Lemma emulated_shape hs sfx d1 d2 : length d1 = length d2 ->
    orel (fun a b => length a = length b) (emulated_padded F hs sfx d1) (emulated_padded F hs sfx d2).
  Proof.
    intros E. destruct sfx as [v|]; [|constructor]. rewrite !emulated_ok, E. destruct (_ <? _); constructor.
    unfold padded. rewrite !app_length, E. reflexivity.
  Qed.
  Lemma new_uniform_p hs sfx d1 d2 : datarel hv d1 d2 ->
    GR es (new_uniform F W1 wit1 hs sfx d1) (new_uniform F W2 wit2 hs sfx d2).
  Proof.
    intros H; unfold new_uniform.
    assert (Ho : orel (fun a b => datarel hv a b) (emulated_padded F hs sfx d1) (emulated_padded F hs sfx d2)).
    { unfold datarel in *. destruct hv; [subst; destruct (emulated_padded F hs sfx d2); constructor; reflexivity|].
      apply emulated_shape, H. }
    destruct Ho as [|a b Hab]; [gp|]. eapply gbind_p.
    - apply alloc_all_p. unfold datarel in Hab. clear H. unfold wrel, vrel in *. destruct hv.
      + subst. clear. induction b; simpl; constructor; auto.
      + subst. revert b Hab. clear. induction a; intros [|x b] H; simpl in *; try discriminate; constructor; auto.
    - intros. rewrite (Forall2_length H0). destruct (_ =? _); gp.
  Qed.
  Hint Resolve new_uniform_p adapter_write_p : par.
  Hint Constructors ecrel : par.
  Lemma rerandomize_p hs sfx trivial d1 d2 : datarel hv d1 d2 ->
    GR es (rerandomize_circuit F W1 one1 wit1 hs sfx trivial d1) (rerandomize_circuit F W2 one2 wit2 hs sfx trivial d2).
  Proof. intros; unfold rerandomize_circuit; gp. Qed.
  Lemma trivial_circuit_p hs trivial :
    GR es (trivial_circuit F W1 one1 wit1 hs trivial) (trivial_circuit F W2 one2 wit2 hs trivial).
  Proof. unfold trivial_circuit; gp. Qed.
End App.
