(** The recursion circuits together: transcript halves, equal instances. *)
From Coq Require Import List Arith NArith Bool Lia Ring Field.
From Verif Require Import FieldDef ArithModel GadgetModel GadgetSpec GadgetProofs Runs PointSpec SpongeModel SpongeSpec
  FoldModel FoldSpec FoldProofs2 PcdModel PcdSpec PcdProofs2 TxzProofs TProofs RecModel RecSpec RecProofs RecProofs2 RecProofs3 RecProofs4.
Import ListNotations.
Open Scope f_scope.
Local Open Scope nat_scope.

Section Perms.
  Variable F : Field.
  Open Scope f_scope.
  Variables (rate : nat) (pi : list F -> list F).
  Definition same (d d' : duplex F) : Prop := d_vec d = d_vec d' /\ d_pos d = d_pos d' /\ d_squeezing d = d_squeezing d'.
  Lemma same_run ops : forall d d', same d d' ->
    match d_run rate pi ops d, d_run rate pi ops d' with
    | inl e, inl e' => e = e'
    | inr (o, x), inr (o', x') => o = o' /\ same x x'
    | _, _ => False
    end.
  Proof.
    induction ops as [|op ops IH]; intros [v p s n] [v' p' s' n'] (E1 & E2 & E3); cbn [d_vec d_pos d_squeezing] in *; subst.
    - cbn. repeat split.
    - destruct op; cbn [d_run].
      + apply IH. unfold d_absorb, d_put, d_permute. cbn [d_vec d_pos d_squeezing d_perms].
        destruct s'; [repeat split|]. destruct (_ =? _); repeat split.
      + unfold d_squeeze, d_get, d_permute. cbn [d_vec d_pos d_squeezing d_perms].
        assert (X : forall (x : F) d d', same d d' -> match
          match d_run rate pi ops d with inl e => inl e | inr (vs, d'') => inr (x :: vs, d'') end,
          match d_run rate pi ops d' with inl e => inl e | inr (vs, d'') => inr (x :: vs, d'') end with
          | inl e, inl e' => e = e' | inr (o, x), inr (o', x') => o = o' /\ same x x' | _, _ => False end).
        { intros x d d' S. specialize (IH d d' S). destruct (d_run rate pi ops d) as [|[? ?]], (d_run rate pi ops d') as [|[? ?]]; auto.
          destruct IH as [-> S']. auto. }
        destruct s'; [destruct (_ =? _)|destruct (_ =? _)]; try reflexivity; apply X; repeat split.
      + unfold d_save_resume, d_permute. cbn [d_vec d_pos d_squeezing d_perms]. destruct s'; [reflexivity|]. destruct (_ =? _); [reflexivity|].
        apply IH. repeat split.
  Qed.
  Lemma d_run_app o1 : forall o2 d, d_run rate pi (o1 ++ o2) d =
    match d_run rate pi o1 d with
    | inl e => inl e
    | inr (v1, d1) => match d_run rate pi o2 d1 with inl e => inl e | inr (v2, d2) => inr (v1 ++ v2, d2) end
    end.
  Proof.
    induction o1 as [|o o1 IH]; intros o2 d; cbn [app d_run].
    - destruct (d_run rate pi o2 d) as [|[? ?]]; reflexivity.
    - destruct o.
      + apply IH.
      + destruct (d_squeeze rate pi d) as [|[x d1]]; [reflexivity|]. rewrite IH. destruct (d_run rate pi o1 d1) as [|[? ?]]; [reflexivity|].
        destruct (d_run rate pi o2 _) as [|[? ?]]; reflexivity.
      + destruct (d_save_resume pi d); [reflexivity|apply IH].
  Qed.
  Lemma absorb_pending d x : d_squeezing (d_absorb rate pi d x) = false /\ d_pos (d_absorb rate pi d x) <> 0%nat.
  Proof. unfold d_absorb, d_put. destruct (d_squeezing d); [cbn; lia|]. destruct (_ =? _); cbn; lia. Qed.
  Lemma outs_len ops : forall d o d', d_run rate pi ops d = inr (o, d') ->
    length o = length (filter (fun x => match x with DSqueeze => true | _ => false end) ops).
  Proof.
    induction ops as [|op ops IH]; intros d o d' H; cbn [d_run] in H; [now inversion H|]. destruct op; cbn [filter].
    - eauto.
    - destruct (d_squeeze _ _ d) as [|[x d1]]; [discriminate|]. destruct (d_run _ _ ops d1) as [|[vs d2]] eqn:E; [discriminate|]. inversion H; subst. cbn. f_equal. eauto.
    - destruct (d_save_resume pi d); [discriminate|eauto].
  Qed.
End Perms.

Section Joint.
  Variable F : Field.
  Open Scope f_scope.
  Variable P : pparams F.
  Hypothesis R1 : (1 <= pp_RATE P)%nat.
  Lemma ops_1_filter tagv (u : uvals F) :
    length (filter (fun x => match x with DSqueeze => true | _ => false end) (ops_1 tagv u)) = 3%nat.
  Proof.
    unfold ops_1. rewrite filter_app.
    replace (filter _ (map DAbsorb tagv)) with (@nil (dop F)) by (induction tagv; auto). reflexivity.
  Qed.
  Lemma ops_1_end tagv (u : uvals F) d0 o d : d_run (pp_RATE P) (poseidon P) (ops_1 tagv u) d0 = inr (o, d) ->
    d_squeezing d = false /\ d_pos d <> 0%nat.
  Proof.
    unfold ops_1, t_pt. rewrite !app_assoc.
    intros H. rewrite d_run_app in H.
    match type of H with match ?q with _ => _ end = _ => destruct q as [|[v1 d1]]; [discriminate|] end. cbn [d_run] in H. inversion H. apply absorb_pending.
  Qed.
  Lemma transcript_split tagv (u : uvals F) : transcript P tagv u <-> exists sponge, transcript_1 P tagv u sponge /\ transcript_2 P u sponge.
  Proof.
    set (rate := pp_RATE P) in *. set (pi := poseidon P) in *.
    assert (S : forall d, d_squeezing d = false -> d_pos d <> 0%nat -> d_save_resume pi d = inr (d_permute pi d true)).
    { intros d S N. unfold d_save_resume. now rewrite S, (proj2 (Nat.eqb_neq _ _) N). }
    assert (Q : forall d, d_squeezing d = false -> d_pos d <> 0%nat ->
      match d_run rate pi (ops_2 u) d, d_run rate pi (ops_2 u) (mk_duplex (d_vec (d_permute pi d true)) 0 true 0) with
      | inl e, inl e' => e = e' | inr (o, x), inr (o', x') => o = o' /\ same F x x' | _, _ => False end).
    { intros d Sd N. pose proof (same_run F rate pi (ops_2 u) (d_permute pi d true) (mk_duplex (d_vec (d_permute pi d true)) 0 true 0) ltac:(repeat split)) as X.
      replace (d_run rate pi (ops_2 u) d) with (d_run rate pi (ops_2 u) (d_permute pi d true)); [exact X|].
      unfold ops_2. cbn [app d_run]. replace (d_squeeze rate pi d) with (d_squeeze rate pi (d_permute pi d true)); [reflexivity|].
      unfold d_squeeze. rewrite Sd, (proj2 (Nat.eqb_neq _ _) N). unfold d_permute at 1 2. cbn [d_squeezing d_pos].
      rewrite (proj2 (Nat.eqb_neq 0 rate)) by lia. reflexivity. }
    unfold transcript, transcript_1, transcript_2. fold rate pi. split.
    - intros (df & H). rewrite d_run_app in H. destruct (d_run rate pi (ops_1 tagv u) _) as [|[o1 d1]] eqn:E1; [discriminate|].
      destruct (d_run rate pi (ops_2 u) d1) as [|[o2 d2]] eqn:E2; [discriminate|]. injection H as Ho _.
      destruct (ops_1_end _ _ _ _ _ E1) as [Sd N]. pose proof (outs_len _ _ _ _ _ _ _ E1) as L. rewrite ops_1_filter in L.
      apply (f_equal (firstn 3)) in Ho as Ho1. apply (f_equal (skipn 3)) in Ho. rewrite <- L, firstn_app, firstn_all, Nat.sub_diag in Ho1.
      rewrite <- L, skipn_app, skipn_all, Nat.sub_diag in Ho. rewrite L in Ho, Ho1. cbn in Ho, Ho1. rewrite app_nil_r in Ho1.
      exists (d_vec (d_permute pi d1 true)). split.
      + exists (d_permute pi d1 true). split; [|reflexivity]. rewrite d_run_app, E1. cbn [d_run]. rewrite (S _ Sd N), app_nil_r. now rewrite Ho1.
      + specialize (Q d1 Sd N). rewrite E2 in Q. destruct (d_run rate pi (ops_2 u) (mk_duplex _ 0 true 0)) as [|[o3 d3]]; [destruct Q|].
        destruct Q as [<- _]. exists d3. now rewrite Ho.
    - intros (sp & (d & H & <-) & (d2 & H2)). rewrite d_run_app in H. destruct (d_run rate pi (ops_1 tagv u) _) as [|[o1 d1]] eqn:E1; [discriminate|].
      destruct (ops_1_end _ _ _ _ _ E1) as [Sd N]. cbn [d_run] in H. rewrite (S _ Sd N), app_nil_r in H. injection H as <- <-.
      specialize (Q d1 Sd N). rewrite H2 in Q. destruct (d_run rate pi (ops_2 u) d1) as [|[o3 d3]] eqn:E3; [destruct Q|]. destruct Q as [-> _].
      exists d3. rewrite d_run_app, E1, E3. reflexivity.
  Qed.
  Lemma transcript_1_sponge tagv (u : uvals F) s s' : transcript_1 P tagv u s -> transcript_1 P tagv u s' -> s = s'.
  Proof. intros (d & H & <-) (d' & H' & <-). rewrite H in H'. now injection H' as <-. Qed.
End Joint.

(** instances with the same written values *)
Section Ext.
  Variable F : Field.
  Open Scope f_scope.
  Definition ueq (u u' : uvals F) : Prop := (forall p, uv_pt u p = uv_pt u' p) /\ (forall x, uv_el u x = uv_el u' x).
  Lemma write_ueq (u u' : uvals F) : u_write u = u_write u' <-> ueq u u'.
  Proof.
    split.
    - rewrite !u_write_all. unfold u_values, uall. cbn [flat_map app]. intros H. injection H; intros.
      split; intros []; auto; apply injective_projections; auto.
    - intros [A B]. rewrite !u_write_all. unfold u_values. apply flat_map_ext. intros [p|x]; [now rewrite A|now rewrite B].
  Qed.
  Lemma write_len (u : uvals F) : length (u_write u) = 29%nat.
  Proof. reflexivity. Qed.
  Lemma ueq_sym u u' : ueq u u' -> ueq u' u.
  Proof. intros [A B]. split; intros; auto. Qed.
  Lemma pts_on_ext cb (u u' : uvals F) : ueq u u' -> pts_on cb u -> pts_on cb u'.
  Proof. intros [A B] H p. rewrite <- A. apply H. Qed.
  Lemma ops_1_ext tagv (u u' : uvals F) : ueq u u' -> ops_1 tagv u = ops_1 tagv u'.
  Proof. intros [A B]. unfold ops_1, t_pt. now rewrite !A. Qed.
  Lemma ops_2_ext (u u' : uvals F) : ueq u u' -> ops_2 u = ops_2 u'.
  Proof. intros [A B]. unfold ops_2, t_pt. now rewrite !A. Qed.
  Lemma chals_ext (u u' : uvals F) : ueq u u' -> chals_1 u = chals_1 u' /\ chals_2 u = chals_2 u'.
  Proof. intros [A B]. unfold chals_1, chals_2. cbn [map]. now rewrite !B. Qed.
  Lemma hashes_1_ext P tagv log2 l r oe u u' : ueq u u' -> hashes_1_rel P tagv log2 l r oe u -> hashes_1_rel P tagv log2 l r oe u'.
  Proof.
    intros E. pose proof E as [A B]. unfold hashes_1_rel, transcript_1. rewrite <- B, <- (ops_1_ext tagv u u' E), <- (proj1 (chals_ext u u' E)). auto.
  Qed.
  Lemma hashes_2_ext P s u u' : ueq u u' -> transcript_2 P u s -> transcript_2 P u' s.
  Proof. intros E. unfold transcript_2. rewrite <- (ops_2_ext u u' E), <- (proj2 (chals_ext u u' E)). auto. Qed.
  Lemma inner_ext M l r oe ie u u' : ueq u u' -> inner_collapse_rel M l r oe ie u -> inner_collapse_rel M l r oe ie u'.
  Proof. intros [A B]. unfold inner_collapse_rel. rewrite <- !B. auto. Qed.
  Lemma outer_ext N l r oe u u' : ueq u u' -> outer_collapse_rel N l r oe u -> outer_collapse_rel N l r oe u'.
  Proof. intros [A B]. unfold outer_collapse_rel. rewrite <- !B. auto. Qed.
  Lemma compute_v_ext honest cb k M N nbits gen zeta omega l r q e u u' : ueq u u' ->
    compute_v_rel honest cb k M N nbits gen zeta omega l r q e u -> compute_v_rel honest cb k M N nbits gen zeta omega l r q e u'.
  Proof. intros [A B]. unfold compute_v_rel, open_points, axbx. rewrite <- !B. auto. Qed.
End Ext.
Arguments ueq {F}.
