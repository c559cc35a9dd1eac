(** Genericity of the five native recursion circuits. *)
From Coq Require Import List Arith NArith ZArith Bool Lia.
From Verif Require Import FieldDef ArithModel ArithSpec GadgetModel SpongeModel FoldModel EscModel PcdModel AppModel RecModel
  ParSpec ParProofs ParProofs2.
Import ListNotations.
Local Open Scope nat_scope.
Local Open Scope g_scope.

Ltac split2 :=
  repeat lazymatch goal with
         | |- Forall2 _ (_ :: _) _ => apply Forall2_cons
         | |- Forall2 _ [] _ => apply Forall2_nil
         | |- clrel _ _ => constructor
         | |- prel _ _ _ _ => apply mk_prel
         end; auto.

Section Rec.
  Context {F : Field} {W1 W2 : Type} {one1 : W1} {one2 : W2}.
  Context {RW : W1 -> W2 -> Prop} {hv : bool}.
  Hypothesis Hone : RW one1 one2.
  Context {wit1 wit2 : bool}.
  Hypothesis Hwit : wrel hv wit1 wit2.
  Variable cb : F.
  Local Notation er := (erel (F := F) RW hv).
  Local Notation pr := (ptrel (F := F) RW hv).
  Local Notation br := (brel RW hv).
  Local Notation es := (Forall2 er).
  Local Notation GR := (grel (F := F) RW hv).
  Local Notation tr := (fun _ _ : unit => True).
  Local Notation ubr := (ubrel (F := F) RW hv).
  Local Notation uor := (uorel (F := F) RW hv).
  Local Notation pir := (pirel (F := F) RW hv).
  Local Notation prer := (prerel (F := F) RW hv).
  Local Notation oer := (oerel (F := F) RW hv).
  Local Notation qor := (qorel (F := F) RW hv).
  Local Notation eor := (eorel (F := F) RW hv).
  Local Notation outr := (prel es (vrel (T := coverage) hv)).

  Lemma ub_new_p i1 i2 : vrel hv i1 i2 -> ubr (ub_new i1) (ub_new i2).
  Proof. intros H. repeat split; constructor || assumption. Qed.
  Lemma set_pt_p b1 b2 f s1 s2 : ubr b1 b2 -> slrel pr s1 s2 -> ubr (set_pt b1 f s1) (set_pt b2 f s2).
  Proof. intros (Hp & He & Hi) Hs. repeat split; cbn; intros; try apply Hp; try apply He; try assumption; destruct (upt_eqb _ _); apply Hs || apply Hp. Qed.
  Lemma set_el_p b1 b2 f s1 s2 : ubr b1 b2 -> slrel er s1 s2 -> ubr (set_el b1 f s1) (set_el b2 f s2).
  Proof. intros (Hp & He & Hi) Hs. repeat split; cbn; intros; try apply Hp; try apply He; try assumption; destruct (uel_eqb _ _); apply Hs || apply He. Qed.
  Lemma mk_slrel {A B : Type} (R : A -> B -> Prop) x y s : orel R x y -> slrel R (mk_slot x s) (mk_slot y s).
  Proof. split; [assumption|reflexivity]. Qed.
  Hint Resolve ub_new_p set_pt_p set_el_p mk_slrel : par.
  Lemma alloc_pt_p b1 b2 f : ubr b1 b2 -> GR pr (alloc_pt F W1 one1 cb b1 f) (alloc_pt F W2 one2 cb b2 f).
  Proof. intros (Hp & He & Hi). unfold alloc_pt. eauto with par. Qed.
  Lemma alloc_el_p b1 b2 f : ubr b1 b2 -> GR er (alloc_el F W1 b1 f) (alloc_el F W2 b2 f).
  Proof. intros (Hp & He & Hi). unfold alloc_el. eauto with par. Qed.
  Hint Resolve alloc_pt_p alloc_el_p : par.
  Lemma read_el_p b1 b2 f : ubr b1 b2 -> GR (prel er ubr) (read_el F W1 b1 f) (read_el F W2 b2 f).
  Proof.
    intros H. unfold read_el. destruct (proj1 (proj2 H) f) as [Hv Hs]. rewrite Hs. destruct Hv; gp.
  Qed.
  Lemma provide_el_p b1 b2 f v1 v2 : ubr b1 b2 -> er v1 v2 -> GR ubr (provide_el F W1 b1 f v1) (provide_el F W2 b2 f v2).
  Proof. intros H Hv. unfold provide_el. destruct (proj1 (proj2 H) f) as [Hs _]. destruct Hs; gp. Qed.
  Lemma receive_el_p b1 b2 f : ubr b1 b2 -> GR (prel er ubr) (receive_el F W1 b1 f) (receive_el F W2 b2 f).
  Proof. intros H. unfold receive_el. destruct (proj1 (proj2 H) f) as [Hv _]. destruct Hv; gp. Qed.
  Lemma receive_pt_p b1 b2 f : ubr b1 b2 -> GR (prel pr ubr) (receive_pt F W1 one1 cb b1 f) (receive_pt F W2 one2 cb b2 f).
  Proof. intros H. unfold receive_pt. destruct (proj1 H f) as [Hv _]. destruct Hv; gp. Qed.
  Lemma pt_write_p p1 p2 : pr p1 p2 -> es (pt_write F W1 p1) (pt_write F W2 p2).
  Proof. intros [H1 H2]. unfold pt_write. auto. Qed.
  Hint Resolve read_el_p provide_el_p receive_el_p receive_pt_p pt_write_p : par.
  Lemma take_all_p b1 b2 : ubr b1 b2 -> forall fs, GR es (take_all F W1 one1 cb b1 fs) (take_all F W2 one2 cb b2 fs).
  Proof.
    intros H. induction fs as [|[f|f] fs IH]; cbn [take_all]; [gp| |].
    - destruct (proj1 H f) as [Hv _]. eapply gbind_p with (RA := pr); [destruct Hv; gp|intros]. gp.
    - destruct (proj1 (proj2 H) f) as [Hv _]. eapply gbind_p with (RA := er); [destruct Hv; gp|intros]. gp.
  Qed.
  Hint Resolve take_all_p : par.
  Lemma was_set_p b1 b2 f : ubr b1 b2 -> was_set b1 f = was_set b2 f.
  Proof. intros (Hp & He & _). destruct f as [g|g]; [apply (Hp g)|apply (He g)]. Qed.
  Lemma cover_all_p b1 b2 : ubr b1 b2 -> forall fs c, cover_all b1 fs c = cover_all b2 fs c.
  Proof.
    intros H. induction fs; intros c; cbn [cover_all]; [reflexivity|]. rewrite (was_set_p _ _ a H), IHfs.
    destruct (was_set b2 a); [destruct (c a)|]; auto.
  Qed.
  Lemma finish_no_suffix_p b1 b2 : ubr b1 b2 ->
    GR outr (finish_no_suffix F W1 one1 cb b1) (finish_no_suffix F W2 one2 cb b2).
  Proof.
    intros H. unfold finish_no_suffix. gp1. pose proof (proj2 (proj2 H)) as Hi. pose proof (cover_all_p _ _ H uall) as Hc.
    unfold vrel in *. destruct hv; rewrite Hi.
    - destruct (ub_inst b2); [rewrite Hc; destruct (cover_all b2 _ _)|]; constructor; split; cbn; auto.
    - destruct (ub_inst b2); [destruct (cover_all b2 _ _)|]; try (apply gr_fail; reflexivity); apply gr_ret; split; cbn; auto.
  Qed.
  Hint Resolve finish_no_suffix_p : par.
  Lemma finish_p b1 b2 : ubr b1 b2 -> GR outr (finish F W1 one1 wit1 cb b1) (finish F W2 one2 wit2 cb b2).
  Proof. intros; unfold finish. gp. Qed.
  Hint Resolve finish_p : par.
  Lemma uout_write_p u1 u2 : uor u1 u2 -> es (uout_write F W1 u1) (uout_write F W2 u2).
  Proof.
    intros [Hp He]. unfold uout_write. induction uall as [|[f|f] l IH]; cbn [flat_map]; [constructor| |].
    - apply Forall2_app; [apply pt_write_p, Hp|exact IH].
    - constructor; [apply He|exact IH].
  Qed.

  Lemma hz_writes_p p1 p2 v1 v2 : er p1 p2 -> es v1 v2 -> forall a1 a2, orel er a1 a2 ->
    GR (orel er) (hz_writes F W1 p1 a1 v1) (hz_writes F W2 p2 a2 v2).
  Proof. induction 2; intros; cbn [hz_writes]; gp. Qed.
  Lemma hz_finish_ky_p p1 p2 a1 a2 : er p1 p2 -> orel er a1 a2 ->
    GR er (hz_finish_ky F W1 one1 wit1 p1 a1) (hz_finish_ky F W2 one2 wit2 p2 a2).
  Proof. intros; unfold hz_finish_ky; gp. Qed.
  Hint Resolve uout_write_p hz_writes_p hz_finish_ky_p : par.
  Lemma unified_ky_values_p i1 i2 y1 y2 : pir i1 i2 -> er y1 y2 ->
    GR (prel er er) (unified_ky_values F W1 one1 wit1 i1 y1) (unified_ky_values F W2 one2 wit2 i2 y2).
  Proof. intros (H1 & H2 & H3 & H4 & H5) Hy. unfold unified_ky_values. gp. Qed.
  Lemma application_ky_p i1 i2 y1 y2 : pir i1 i2 -> er y1 y2 ->
    GR er (application_ky F W1 one1 wit1 i1 y1) (application_ky F W2 one2 wit2 i2 y2).
  Proof. intros (H1 & H2 & H3 & H4 & H5) Hy. unfold application_ky. gp. Qed.
  Lemma is_trivial_p i1 i2 : pir i1 i2 -> GR br (is_trivial F W1 one1 wit1 i1) (is_trivial F W2 one2 wit2 i2).
  Proof. intros (H1 & H2 & H3 & H4 & H5). unfold is_trivial. destruct (Forall2_rev _ _ _ H3); gp. Qed.
  Hint Resolve unified_ky_values_p application_ky_p is_trivial_p b_and_p : par.
  Lemma is_base_case_p p1 p2 : prer p1 p2 -> GR br (is_base_case F W1 one1 wit1 p1) (is_base_case F W2 one2 wit2 p2).
  Proof. intros [Hl Hr]. unfold is_base_case. gp. Qed.
  Lemma p_consistent_p p1 p2 : pr p1 p2 -> GR tr (p_consistent F W1 one1 cb p1) (p_consistent F W2 one2 cb p2).
  Proof.
    intros H. unfold p_consistent. eapply gbind_p; [apply try_just_p; destruct H; eauto with par|intros]. gp.
  Qed.
  Hint Resolve is_base_case_p p_consistent_p : par.
  Lemma pts_consistent_p u1 u2 : uor u1 u2 -> forall fs,
    GR tr (pts_consistent F W1 one1 cb u1 fs) (pts_consistent F W2 one2 cb u2 fs).
  Proof. intros [Hp He]. induction fs as [|[f|f] fs IH]; cbn [pts_consistent]; gp. Qed.
  Hint Resolve pts_consistent_p : par.
  Lemma pre_consistent_p p1 p2 : prer p1 p2 -> GR tr (pre_consistent F W1 one1 cb p1) (pre_consistent F W2 one2 cb p2).
  Proof. intros [(_ & _ & _ & _ & Hl) (_ & _ & _ & _ & Hr)]. unfold pre_consistent. gp. Qed.
  Lemma e_equal_p a1 a2 b1 b2 : er a1 a2 -> er b1 b2 -> GR tr (e_equal F W1 a1 b1) (e_equal F W2 a2 b2).
  Proof. intros [? _] [? _]. apply g_equal_p; assumption. Qed.
  Hint Resolve pre_consistent_p e_equal_p : par.
  Lemma es_equal_p a1 a2 : es a1 a2 -> forall b1 b2, es b1 b2 -> GR tr (es_equal F W1 a1 b1) (es_equal F W2 a2 b2).
  Proof. induction 1; intros b1 b2 Hb; destruct Hb; cbn [es_equal]; gp. Qed.
  Hint Resolve es_equal_p : par.

  Local Notation ckr := (ckrel (F := F) RW hv).
  Lemma pir_left i1 i2 : pir i1 i2 -> es (pi_left _ _ i1) (pi_left _ _ i2). Proof. intros H; apply H. Qed.
  Lemma pir_right i1 i2 : pir i1 i2 -> es (pi_right _ _ i1) (pi_right _ _ i2). Proof. intros H; apply H. Qed.
  Lemma pir_out i1 i2 : pir i1 i2 -> es (pi_out _ _ i1) (pi_out _ _ i2). Proof. intros H; apply H. Qed.
  Lemma pir_cid i1 i2 : pir i1 i2 -> er (pi_cid _ _ i1) (pi_cid _ _ i2). Proof. intros H; apply H. Qed.
  Lemma pir_el i1 i2 f : pir i1 i2 -> er (uo_el _ _ (pi_uni _ _ i1) f) (uo_el _ _ (pi_uni _ _ i2) f).
  Proof. intros H; apply H. Qed.
  Lemma oer_left o1 o2 : oer o1 o2 -> ckr (oe_left _ _ o1) (oe_left _ _ o2). Proof. intros H; apply H. Qed.
  Lemma oer_right o1 o2 : oer o1 o2 -> ckr (oe_right _ _ o1) (oe_right _ _ o2). Proof. intros H; apply H. Qed.
  Lemma oer_errs o1 o2 : oer o1 o2 -> es (oe_errs _ _ o1) (oe_errs _ _ o2). Proof. intros H; apply H. Qed.
  Lemma oer_collapsed o1 o2 : oer o1 o2 -> es (oe_collapsed _ _ o1) (oe_collapsed _ _ o2). Proof. intros H; apply H. Qed.
  Lemma oer_sponge o1 o2 : oer o1 o2 -> es (oe_sponge _ _ o1) (oe_sponge _ _ o2). Proof. intros H; apply H. Qed.
  Lemma ckr_app c1 c2 : ckr c1 c2 -> er (ck_application c1) (ck_application c2). Proof. intros H; apply H. Qed.
  Lemma ckr_uni c1 c2 : ckr c1 c2 -> er (ck_unified c1) (ck_unified c2). Proof. intros H; apply H. Qed.
  Lemma ckr_bridge c1 c2 : ckr c1 c2 -> er (ck_bridge c1) (ck_bridge c2). Proof. intros H; apply H. Qed.
  Lemma prel_er_fst {A B : Type} (S : A -> B -> Prop) p q : prel er S p q -> er (fst p) (fst q). Proof. intros H; apply H. Qed.
  Lemma prel_er_snd {A B : Type} (S : A -> B -> Prop) p q : prel S er p q -> er (snd p) (snd q). Proof. intros H; apply H. Qed.
  Hint Resolve pir_left pir_right pir_out pir_cid pir_el oer_left oer_right oer_errs oer_collapsed oer_sponge ckr_app ckr_uni ckr_bridge
    prel_er_fst prel_er_snd : par.

  Section Hashes.
    Variable P : pparams F.
    Variable of_u : N -> F.
    Variable tag : list N.
    Local Notation sr := (sprel (F := F) RW hv).
    Local Notation perm1 := (permutation F W1 one1 wit1 P).
    Local Notation perm2 := (permutation F W2 one2 wit2 P).
    Lemma tr_write_p m1 m2 p1 p2 : sr m1 m2 -> pr p1 p2 ->
      GR sr (tr_write F W1 one1 wit1 P m1 p1) (tr_write F W2 one2 wit2 P m2 p2).
    Proof.
      intros Hm [Hx Hy]. unfold tr_write. eapply gbind_p; [eapply sp_absorb_p; eauto using permutation_p|intros].
      eapply sp_absorb_p; eauto using permutation_p.
    Qed.
    Lemma tr_chal_p m1 m2 : sr m1 m2 -> GR (prel er sr) (tr_chal F W1 one1 wit1 P m1) (tr_chal F W2 one2 wit2 P m2).
    Proof.
      intros Hm. unfold tr_chal. eapply gbind_p; [eapply tr_challenge_p; eauto using permutation_p|intros].
      destruct H; gp.
    Qed.
    Hint Resolve tr_write_p tr_chal_p : par.
    Lemma tr_new_perm_p : GR sr (tr_new F W1 one1 wit1 P perm1 of_u tag) (tr_new F W2 one2 wit2 P perm2 of_u tag).
    Proof. eapply tr_new_p; eauto using permutation_p. Qed.
    Lemma sp_save_perm_p m1 m2 : sr m1 m2 -> GR (srel eq es) (sp_save F W1 P perm1 m1) (sp_save F W2 P perm2 m2).
    Proof. intros. eapply sp_save_p; eauto using permutation_p. Qed.
    Lemma rs_challenge_perm_p a b : rsrel (hv := hv) (RW := RW) a b ->
      GR (srel eq (prel er (rsrel (hv := hv) (RW := RW)))) (rs_challenge F W1 P perm1 a) (rs_challenge F W2 P perm2 b).
    Proof. intros. eapply rs_challenge_p; eauto using permutation_p. Qed.
    Hint Resolve tr_new_perm_p sp_save_perm_p rs_challenge_perm_p : par.
    Lemma hashes_1_p lc p1 p2 o1 o2 i1 i2 : prer p1 p2 -> oer o1 o2 -> vrel hv i1 i2 ->
      GR outr (hashes_1 F W1 one1 wit1 cb P of_u tag lc p1 o1 i1) (hashes_1 F W2 one2 wit2 cb P of_u tag lc p2 o2 i2).
    Proof.
      intros [Hl Hr] Ho Hi. pose proof (pir_out _ _ Hl). pose proof (pir_out _ _ Hr).
      unfold hashes_1. cbv zeta. gp. match goal with H : srel _ _ _ _ |- _ => destruct H; gp end.
    Qed.
    Lemma hashes_2_p o1 o2 i1 i2 : oer o1 o2 -> vrel hv i1 i2 ->
      GR outr (hashes_2 F W1 one1 wit1 cb P o1 i1) (hashes_2 F W2 one2 wit2 cb P o2 i2).
    Proof.
      intros Ho Hi. unfold hashes_2. cbv zeta. gp1. destruct H; [gp|]. destruct b, b'. destruct H; cbn [fst snd] in *.
      gp1. gp1. destruct H2; [gp|]. destruct b0, b'. destruct H2; cbn [fst snd] in *. gp.
    Qed.
  End Hashes.

  Lemma two_ky_p z1 z2 a1 a2 b1 b2 l1 l2 r1 r2 : er z1 z2 -> er a1 a2 -> er b1 b2 -> ckr l1 l2 -> ckr r1 r2 ->
    forall i, er (ky_values (two_ky z1 a1 b1 l1 r1) i) (ky_values (two_ky z2 a2 b2 l2 r2) i).
  Proof.
    intros Hz Ha Hb (L1 & L2 & L3) (R1 & R2 & R3) i. unfold ky_values, two_ky. cbn.
    do 14 (destruct i; cbn; [assumption|]). destruct i; assumption.
  Qed.
  Lemma collapse_groups_p M c1 c2 k1 k2 : cfrel (hv := hv) (RW := RW) c1 c2 -> (forall i, er (k1 i) (k2 i)) ->
    forall e1 e2, Forall2 es e1 e2 -> forall i l1 l2, es l1 l2 ->
    GR tr (collapse_groups F W1 one1 wit1 M c1 k1 i e1 l1) (collapse_groups F W2 one2 wit2 M c2 k2 i e2 l2).
  Proof.
    intros Hc Hk. induction 1; intros j l1 l2 Hl; cbn [collapse_groups]; [gp|].
    eapply gbind_p; [eapply fold_products_p; eauto|intros].
    - induction (seq _ _); simpl; auto.
    - destruct (Forall2_nth_error _ _ _ Hl j); gp.
  Qed.
  Lemma inner_collapse_p M p1 p2 o1 o2 e1 e2 i1 i2 : prer p1 p2 -> oer o1 o2 -> Forall2 es e1 e2 -> vrel hv i1 i2 ->
    GR outr (inner_collapse F W1 one1 wit1 cb M p1 o1 e1 i1) (inner_collapse F W2 one2 wit2 cb M p2 o2 e2 i2).
  Proof.
    intros [Hl Hr] Ho He Hi. unfold inner_collapse. cbv zeta. gp1. gp1. gp1. gp1.
    eapply gbind_p; [eapply collapse_groups_p; [eassumption|apply two_ky_p; eauto with par|eassumption|eauto with par]|intros]. gp.
  Qed.
  Lemma outer_collapse_p N p1 p2 o1 o2 i1 i2 : prer p1 p2 -> oer o1 o2 -> vrel hv i1 i2 ->
    GR outr (outer_collapse F W1 one1 wit1 cb N p1 o1 i1) (outer_collapse F W2 one2 wit2 cb N p2 o2 i2).
  Proof. intros Hp Ho Hi. unfold outer_collapse. cbv zeta. gp. Qed.

  Section ComputeV.
    Variables (k M N nbits : nat) (gen : F) (fsqrt : F -> option F) (zeta : F) (omega : icid -> F).
    Lemma txz_routine_p x1 x2 z1 z2 : er x1 x2 -> er z1 z2 ->
      GR er (txz_routine F W1 one1 k x1 z1) (txz_routine F W2 one2 k x2 z2).
    Proof. intros; unfold txz_routine; gp. Qed.
    Lemma inv_add_p b1 b2 d1 d2 v1 v2 : er b1 b2 -> es d1 d2 -> er v1 v2 ->
      GR (prel eq es) (inv_add F W1 b1 d1 v1) (inv_add F W2 b2 d2 v2).
    Proof.
      intros Hb Hd Hv; unfold inv_add. gp1. apply gr_ret. split; cbn [fst snd]; [apply (Forall2_length Hd)|]. eauto with par.
    Qed.
    Lemma prel_snd {A B A' B' : Type} (R : A -> A' -> Prop) (S : B -> B' -> Prop) p q : prel R S p q -> S (snd p) (snd q).
    Proof. intros H; apply H. Qed.
    Lemma prel_eq_fst {A B B' : Type} (S : B -> B' -> Prop) (p : A * B) q : prel eq S p q -> fst p = fst q.
    Proof. intros H; apply H. Qed.
    Lemma inv_add_circuits_p ids : forall b1 b2 d1 d2, er b1 b2 -> es d1 d2 ->
      GR (prel eq es) (inv_add_circuits F W1 one1 wit1 omega b1 d1 ids) (inv_add_circuits F W2 one2 wit2 omega b2 d2 ids).
    Proof.
      induction ids; intros b1 b2 d1 d2 Hb Hd; cbn [inv_add_circuits].
      - apply gr_ret. split; [reflexivity|assumption].
      - gp1. eapply gbind_p; [apply inv_add_p; eassumption|intros]. eapply gbind_p; [apply IHids; [assumption|apply H0]|intros].
        apply gr_ret. split; cbn [fst snd]; [|apply H1]. rewrite (prel_eq_fst _ _ _ H0), (prel_eq_fst _ _ _ H1). reflexivity.
    Qed.
    Lemma inv_all_p d1 d2 : es d1 d2 -> GR es (inv_all F W1 one1 d1) (inv_all F W2 one2 d2).
    Proof. induction 1; cbn [inv_all]; gp. Qed.
    Lemma at_ix_p {A B : Type} (R : A -> B -> Prop) l1 l2 i : Forall2 R l1 l2 -> GR R (at_ix F W1 l1 i) (at_ix F W2 l2 i).
    Proof. intros H; unfold at_ix. destruct (Forall2_nth_error _ _ _ H i); gp. Qed.
    Lemma at_ids_p l1 l2 ixs : es l1 l2 ->
      GR (Forall2 (prel eq er)) (at_ids F W1 l1 ixs) (at_ids F W2 l2 ixs).
    Proof.
      intros H. induction ixs as [|[id i] ixs IH]; cbn [at_ids]; [gp|].
      eapply gbind_p; [eapply at_ix_p; eassumption|intros]. eapply gbind_p; [exact IH|intros].
      apply gr_ret. constructor; [split; [reflexivity|assumption]|assumption].
    Qed.
    Lemma id_get_p d1 d2 l1 l2 id : er d1 d2 -> Forall2 (prel eq er) l1 l2 -> er (id_get F W1 d1 l1 id) (id_get F W2 d2 l2 id).
    Proof.
      intros Hd H. unfold id_get. induction H; simpl; [assumption|]. rewrite (prel_eq_fst _ _ _ H).
      destruct (icid_eqb id (fst y)); [apply H|exact IHForall2].
    Qed.
    Definition cdr (d1 : cdenoms (elem F W1)) (d2 : cdenoms (elem F W2)) : Prop :=
      er (cd_u d1) (cd_u d2) /\ er (cd_y d1) (cd_y d2) /\ er (cd_x d1) (cd_x d2) /\ er (cd_cid d1) (cd_cid d2).
    Definition dnr (d1 : denoms (elem F W1)) (d2 : denoms (elem F W2)) : Prop :=
      cdr (dn_left d1) (dn_left d2) /\ cdr (dn_right d1) (dn_right d2) /\ er (dn_w d1) (dn_w d2) /\ er (dn_x d1) (dn_x d2) /\
      er (dn_y d1) (dn_y d2) /\ er (dn_xz d1) (dn_xz d2) /\ forall i, er (dn_internal d1 i) (dn_internal d2 i).
    Lemma denominators_p u1 u2 w1 w2 x1 x2 y1 y2 z1 z2 p1 p2 :
      er u1 u2 -> er w1 w2 -> er x1 x2 -> er y1 y2 -> er z1 z2 -> prer p1 p2 ->
      GR dnr (denominators F W1 one1 wit1 omega u1 w1 x1 y1 z1 p1) (denominators F W2 one2 wit2 omega u2 w2 x2 y2 z2 p2).
    Proof.
      intros Hu Hw Hx Hy Hz [Hl Hr]. unfold denominators. cbv zeta. gp1.
      do 12 (eapply gbind_p; [apply inv_add_p; [assumption|first [constructor; fail|eapply prel_snd; eassumption]|eauto with par]|intros]).
      eapply gbind_p; [apply inv_add_circuits_p; [assumption|eapply prel_snd; eassumption]|intros].
      eapply gbind_p; [apply inv_all_p; eapply prel_snd; eassumption|intros].
      repeat match goal with H : prel eq es _ _ |- _ => rewrite (prel_eq_fst _ _ _ H); clear H end.
      do 12 (eapply gbind_p; [eapply at_ix_p; eassumption|intros]).
      eapply gbind_p; [eapply at_ids_p; eassumption|intros].
      apply gr_ret. unfold dnr, cdr; cbn. repeat match goal with |- _ /\ _ => split end; try assumption. intros; apply id_get_p; assumption.
    Qed.
    Lemma fu_loop_p al1 al2 q1 q2 : er al1 al2 -> Forall2 (prel (prel er er) er) q1 q2 -> forall a1 a2, orel er a1 a2 ->
      GR (orel er) (fu_loop F W1 al1 a1 q1) (fu_loop F W2 al2 a2 q2).
    Proof.
      intros Ha; induction 1; intros; cbn [fu_loop]; [gp|]. destruct x as [[? ?] ?], y as [[? ?] ?].
      destruct H as [[? ?] ?]; cbn [fst snd] in *. gp.
    Qed.
    Lemma eval_write_p e1 e2 : eor e1 e2 -> es (eval_write e1) (eval_write e2).
    Proof.
      intros (Hl & Hr & H1 & H2 & H3 & H4 & H5 & H6). destruct Hl as (A0 & A1 & A2 & A3 & A4), Hr as (B0 & B1 & B2 & B3 & B4).
      unfold eval_write, ceval_write. cbn. split2.
    Qed.
    Lemma build_claims_p q1 q2 : qor q1 q2 ->
      Forall2 (clrel (hv := hv) (RW := RW)) (build_claims (eval_source q1)) (build_claims (eval_source q2)).
    Proof.
      intros (H1 & H2 & Hl & Hr). destruct Hl as (A0 & A1 & A2 & A3 & A4 & A5), Hr as (B0 & B1 & B2 & B3 & B4 & B5).
      unfold build_claims. cbn. split2.
    Qed.
    Lemma poly_queries_p e1 e2 q1 q2 l1 l2 r1 r2 d1 d2 a1 a2 b1 b2 : eor e1 e2 -> qor q1 q2 -> er l1 l2 -> er r1 r2 ->
      dnr d1 d2 -> er a1 a2 -> er b1 b2 ->
      Forall2 (prel (prel er er) er) (poly_queries e1 q1 l1 r1 d1 a1 b1) (poly_queries e2 q2 l2 r2 d2 a2 b2).
    Proof.
      intros (Hl & Hr & H1 & H2 & H3 & H4 & H5 & H6) (Q1 & Q2 & Ql & Qr) Hv1 Hv2 (Dl & Dr & D1 & D2 & D3 & D4 & D5) Ha Hb.
      destruct Hl as (A0 & A1 & A2 & A3 & A4), Hr as (B0 & B1 & B2 & B3 & B4).
      destruct Ql as (C0 & C1 & C2 & C3 & C4 & C5), Qr as (E0 & E1 & E2 & E3 & E4 & E5).
      destruct Dl as (G1 & G2 & G3 & G4), Dr as (I1 & I2 & I3 & I4).
      unfold poly_queries. cbn. split2.
    Qed.
    Hint Resolve txz_routine_p denominators_p eval_write_p : par.
    Lemma compute_v_p p1 p2 q1 q2 e1 e2 i1 i2 : prer p1 p2 -> qor q1 q2 -> eor e1 e2 -> vrel hv i1 i2 ->
      GR outr (compute_v F W1 one1 wit1 cb k M N nbits gen fsqrt zeta omega p1 q1 e1 i1)
              (compute_v F W2 one2 wit2 cb k M N nbits gen fsqrt zeta omega p2 q2 e2 i2).
    Proof.
      intros Hp Hq He Hi. pose proof Hp as [Hl Hr]. unfold compute_v. cbv zeta. do 14 gp1.
      eapply gbind_p; [eapply compute_axbx_p; eauto using build_claims_p; apply Hq|intros].
      gp1. gp1. gp1. eapply gbind_p; [eapply fu_loop_p; [eassumption|eapply poly_queries_p|constructor]|intros];
        eauto 9 with par; try apply H21.
      gp.
    Qed.
  End ComputeV.
End Rec.
