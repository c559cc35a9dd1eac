(** Proofs for C53: stage wires and the gadgets read from them. *)
From Coq Require Import List Arith NArith Bool Lia.
From Verif Require Import FieldDef ArithModel ArithSpec GadgetModel GadgetSpec GadgetProofs Runs SpongeModel FoldModel PcdModel RecModel RecSpec RecProofs RecProofs2 CircModel CompileModel CompileSpec
  RecStageModel RecStageSpec EmuProofs ParSpec ParProofs ParProofs2 ParProofs3.
Import ListNotations.
Local Open Scope nat_scope.

(** two programs making the same calls on the same wires have the same relations *)
Lemma lrel_eq' {F : Field} (lc lc' : list (lcall F F)) : Forall2 (lrel eq) lc lc' -> lc = lc'.
Proof.
  induction 1 as [|x y l l' H _ IH]; [reflexivity|]. subst. f_equal. destruct H; subst; auto. f_equal.
  induction H as [|t t' ts ts' [E1 E2] _ IH]; [reflexivity|]. destruct t, t'. cbn in *. subst. reflexivity.
Qed.
Lemma grel_holds {F : Field} {A1 A2 : Type} (RA : A1 -> A2 -> Prop) (p : G F F A1) (q : G F F A2) r : grel eq true RA p q -> holds p r ->
  exists r', RA r r' /\ holds q r'.
Proof.
  induction 1 as [a1 a2 H| |p H|w1 w2 k1 k2 _ _ IH|w1 w2 k1 k2 _ _ IH|l1 l2 k1 k2 Hl _ IH|l1 l2 k1 k2 Hl _ IH]; cbn [holds].
  - intros ->. eauto.
  - intros [].
  - discriminate.
  - intros (a & b & c & d & E1 & E2 & H). destruct (IH a a b b c c d d eq_refl eq_refl eq_refl eq_refl H) as (r' & R & H').
    exists r'. split; [exact R|]. exists a, b, c, d. auto.
  - intros (v & H). destruct (IH v v eq_refl H) as (r' & R & H'). exists r'. eauto.
  - intros H. apply lrel_eq' in Hl. subst l2. apply (IH _ _ eq_refl H).
  - intros [E H]. apply lrel_eq' in Hl. subst l2. destruct (IH H) as (r' & R & H'). exists r'. auto.
Qed.
Lemma vrel_true_sym {T : Type} (x y : option T) : vrel true x y -> vrel true y x.
Proof. cbn. congruence. Qed.
Lemma erel_eq {F : Field} (x y : elem F F) : erel eq true x y -> x = y.
Proof. destruct x, y. intros [H1 H2]. cbn in *. congruence. Qed.
Lemma erels_eq {F : Field} (x y : list (elem F F)) : Forall2 (erel eq true) x y -> x = y.
Proof. induction 1 as [|a b l l' H _ IH]; [reflexivity|]. apply erel_eq in H. congruence. Qed.
Lemma outr_eq {F : Field} (x y : list (elem F F) * option coverage) : prel (Forall2 (erel eq true)) (vrel true) x y -> x = y.
Proof. destruct x, y. intros [H1 H2]. cbn in *. apply erels_eq in H1. congruence. Qed.
Lemma out_holds {F : Field} (p q : G F F (list (elem F F) * option coverage)) r :
  grel eq true (prel (Forall2 (erel eq true)) (vrel true)) p q -> holds p r -> holds q r.
Proof. intros H K. destruct (grel_holds _ p q r H K) as (r' & R & H'). apply outr_eq in R. now subst. Qed.

(** ** genericity of the loaders *)
Section LoadP.
  Context {F : Field} {W1 W2 : Type}.
  Variable RW : W1 -> W2 -> Prop.
  Variables (o1 : W1) (o2 : W2).
  Hypothesis Ho : RW o1 o2.
  Local Notation er := (erel (F := F) RW true).
  Lemma we_p a b : RW a b -> er (we a) (we b).
  Proof. intros H. split; [exact H|reflexivity]. Qed.
  Lemma nth_p l l' i : Forall2 RW l l' -> RW (nth i l o1) (nth i l' o2).
  Proof. intros H. revert i. induction H as [|a b l l' H _ IH]; intros [|i]; cbn [nth]; auto. Qed.
  Lemma at_p l l' i : Forall2 RW l l' -> er (at_wire o1 l i) (at_wire o2 l' i).
  Proof. intros H. now apply we_p, nth_p. Qed.
  Lemma skipn_p {A B : Type} (R : A -> B -> Prop) l l' i : Forall2 R l l' -> Forall2 R (skipn i l) (skipn i l').
  Proof. intros H. revert i. induction H as [|a b l l' H K IH]; intros [|i]; cbn [skipn]; auto. Qed.
  Lemma firstn_p {A B : Type} (R : A -> B -> Prop) l l' i : Forall2 R l l' -> Forall2 R (firstn i l) (firstn i l').
  Proof. intros H. revert i. induction H as [|a b l l' H K IH]; intros [|i]; cbn [firstn]; auto. Qed.
  Lemma map_p {A B C D : Type} (R : A -> B -> Prop) (S : C -> D -> Prop) f g l l' : (forall a b, R a b -> S (f a) (g b)) -> Forall2 R l l' ->
    Forall2 S (map f l) (map g l').
  Proof. intros H. induction 1; cbn [map]; auto. Qed.
  Lemma slice_p l l' i n : Forall2 RW l l' -> Forall2 er (slice l i n) (slice l' i n).
  Proof. intros H. unfold slice. apply (map_p RW); [apply we_p|]. now apply firstn_p, skipn_p. Qed.
  Hint Resolve at_p slice_p : par.
  Lemma load_uout_p l l' o : Forall2 RW l l' -> uorel RW true (load_uout (F := F) o1 l o) (load_uout o2 l' o).
  Proof. intros H. split; intros f; [split|]; cbn [uo_pt uo_el load_uout px py]; auto with par. Qed.
  Lemma load_pin_p hs l l' o : Forall2 RW l l' -> pirel RW true (load_pin (F := F) o1 hs l o) (load_pin o2 hs l' o).
  Proof. intros H. repeat split; cbn [pi_left pi_right pi_out pi_cid pi_uni load_pin]; auto with par; apply load_uout_p; exact H. Qed.
  Lemma load_pre_p hs l l' : Forall2 RW l l' -> prerel RW true (load_pre (F := F) o1 hs l) (load_pre o2 hs l').
  Proof. intros H. split; apply load_pin_p; exact H. Qed.
  Lemma load_cky_p l l' o : Forall2 RW l l' -> ckrel RW true (load_cky (F := F) o1 l o) (load_cky o2 l' o).
  Proof. intros H. repeat split; cbn [ck_application ck_unified ck_bridge load_cky]; auto with par; apply nth_p; exact H. Qed.
  Lemma load_oe_p n t l l' : Forall2 RW l l' -> oerel RW true (load_oe (F := F) o1 n t l) (load_oe o2 n t l').
  Proof. intros H. split; [|split; [|split; [|split]]]; cbn [oe_errs oe_collapsed oe_left oe_right oe_sponge load_oe]; auto with par; apply load_cky_p; exact H. Qed.
  Lemma load_ie_p m n l l' : Forall2 RW l l' -> Forall2 (Forall2 er) (load_ie m n l) (load_ie m n l').
  Proof.
    intros H. unfold load_ie. generalize (seq 0 n) as s. induction s; constructor; auto with par.
  Qed.
  Lemma load_query_p l l' : Forall2 RW l l' -> qorel RW true (load_query (F := F) o1 l) (load_query o2 l').
  Proof. intros H. split; [|split; [|split]]; try split; repeat split; cbn; intros; try apply we_p; try apply nth_p; auto. Qed.
  Lemma load_eval_p l l' : Forall2 RW l l' -> eorel RW true (load_eval (F := F) o1 l) (load_eval o2 l').
  Proof. intros H. repeat split; cbn; intros; try apply nth_p; auto. Qed.
  Lemma stage_of_p (gs : list (list W1)) (gs' : list (list W2)) i : Forall2 (Forall2 RW) gs gs' -> Forall2 RW (stage_of gs i) (stage_of gs' i).
  Proof. unfold stage_of. intros H. revert i. induction H as [|a b l l' H _ IH]; intros [|i]; cbn [nth]; auto. Qed.
  Lemma fst_out_p p q : grel RW true (prel (Forall2 er) (vrel true)) p q -> grel RW true (Forall2 er) (fst_out p) (fst_out q).
  Proof. intros H. unfold fst_out. eapply gbind_p; [exact H|]. intros a b [R _]. apply gr_ret. exact R. Qed.
End LoadP.

Section Gen.
  Context {F : Field}.
  Variable cb : F.
  Variables (hs M N : nat).
  Variable P : pparams F.
  Ltac go L := intros W1 W2 o1 o2 RW gs1 gs2 Ho Hg; apply fst_out_p; apply L; try exact Ho; try reflexivity;
    first [apply load_pre_p | apply load_oe_p | apply load_ie_p | apply load_query_p | apply load_eval_p]; try exact Ho; apply stage_of_p; exact Hg.
  Lemma s_hashes_1_gen of_u tag log2 : generic_staged (s_hashes_1 F cb hs N P of_u tag log2).
  Proof. go (@hashes_1_p F). Qed.
  Lemma s_hashes_2_gen : generic_staged (s_hashes_2 F cb N P).
  Proof. go (@hashes_2_p F). Qed.
  Lemma s_inner_gen : generic_staged (s_inner F cb hs M N P).
  Proof. go (@inner_collapse_p F). Qed.
  Lemma s_outer_gen : generic_staged (s_outer F cb hs N P).
  Proof. go (@outer_collapse_p F). Qed.
  Lemma s_compute_v_gen k nbits gen fsqrt zeta omega : generic_staged (s_compute_v F cb hs M N k nbits gen fsqrt zeta omega).
  Proof. go (@compute_v_p F). Qed.
End Gen.

(** ** reading back what was written *)
Section Back.
  Context {F : Field}.
  Open Scope f_scope.
  Local Notation er := (erel (F := F) (W1 := F) (W2 := F) eq true).
  Lemma slice_mid (a b c : list F) i n : length a = i -> length b = n -> slice (F := F) (a ++ b ++ c) i n = map (el false) b.
  Proof.
    intros <- <-. unfold slice. rewrite skipn_app, Nat.sub_diag, skipn_all. cbn [app skipn].
    rewrite firstn_app, Nat.sub_diag, firstn_all. cbn [firstn]. now rewrite app_nil_r.
  Qed.
  Lemma er_refl x : er x x.
  Proof. split; reflexivity. Qed.
  Lemma ers_refl l : Forall2 er l l.
  Proof. induction l; constructor; auto using er_refl. Qed.
  Lemma at_mid (a b : list F) o i : length a = o -> at_wire (F := F) f1 (a ++ b) (o + i)%nat = at_wire f1 b i.
  Proof. intros <-. unfold at_wire. now rewrite app_nth2_plus. Qed.
  Lemma uout_back (a c : list F) (u : uvals F) o : length a = o -> uorel eq true (load_uout (F := F) f1 (a ++ u_write u ++ c) o) (uout_of false u).
  Proof.
    intros L. split; intros f; cbn [uo_pt uo_el load_uout uout_of].
    - rewrite <- Nat.add_assoc, !at_mid by exact L. destruct f; repeat split; reflexivity.
    - rewrite at_mid by exact L. destruct f; split; reflexivity.
  Qed.
  Lemma pv_length hs (c : pvals F) : headers_of hs c -> length (pv_write c) = pin_wires hs.
  Proof. intros (H1 & H2 & H3). unfold pv_write, pin_wires. rewrite !app_length, H1, H2, H3. cbn [length]. change (length (u_write (pv_uni c))) with unified_wires. lia. Qed.
  Lemma pin_back hs (a d : list F) (c : pvals F) o : length a = o -> headers_of hs c ->
    pirel eq true (load_pin (F := F) f1 hs (a ++ pv_write c ++ d) o) (pin_of false c).
  Proof.
    intros L (H1 & H2 & H3). unfold pv_write.
    assert (E : forall x y, x = y -> Forall2 er x y) by (intros x y ->; apply ers_refl).
    split; [|split; [|split; [|split]]]; cbn [pi_left pi_right pi_out pi_cid pi_uni load_pin pin_of].
    - apply E. rewrite <- !app_assoc. now apply slice_mid.
    - apply E. rewrite <- !app_assoc. rewrite (app_assoc a). apply slice_mid; [rewrite app_length; lia|exact H2].
    - apply E. rewrite <- !app_assoc. rewrite (app_assoc a), (app_assoc (a ++ _)). apply slice_mid; [rewrite !app_length; lia|exact H3].
    - rewrite <- !app_assoc. rewrite (app_assoc a), (app_assoc (a ++ _)), (app_assoc ((a ++ _) ++ _)).
      replace (o + 3 * hs)%nat with ((o + 3 * hs) + 0)%nat by lia. rewrite at_mid by (rewrite !app_length; lia). split; reflexivity.
    - rewrite <- !app_assoc. rewrite (app_assoc a), (app_assoc (a ++ _)), (app_assoc ((a ++ _) ++ _)), (app_assoc (((a ++ _) ++ _) ++ _)).
      apply uout_back. rewrite !app_length. cbn [length]. lia.
  Qed.
  Lemma pre_back hs (l r : pvals F) : headers_of hs l -> headers_of hs r ->
    prerel eq true (load_pre (F := F) f1 hs (pre_write l r)) (pre_of false l r).
  Proof.
    intros Hl Hr. split; cbn [pr_left pr_right load_pre pre_of].
    - unfold pre_write. apply (pin_back hs [] (pv_write r) l 0 eq_refl Hl).
    - unfold pre_write. rewrite <- (app_nil_r (pv_write r)). apply pin_back; [now apply pv_length|exact Hr].
  Qed.
  Lemma oe_back n t (o : ovals F) : oe_sized n t o -> oerel eq true (load_oe (F := F) f1 n t (oe_write o)) (oe_of false o).
  Proof.
    intros (H1 & H2 & H3). unfold oe_write.
    assert (E : forall x y, x = y -> Forall2 er x y) by (intros x y ->; apply ers_refl).
    assert (C : forall (a d : list F) c q, length a = q -> ckrel eq true (load_cky (F := F) f1 (a ++ ck_write c ++ d) q) (cky_of false c)).
    { intros a d c q L. repeat split; cbn [ck_application ck_unified ck_bridge load_cky cky_of]; try (rewrite at_mid by exact L; reflexivity).
      - replace q with (q + 0)%nat by lia. rewrite at_mid by exact L. reflexivity. }
    split; [|split; [|split; [|split]]]; cbn [oe_errs oe_collapsed oe_left oe_right oe_sponge load_oe oe_of].
    - apply E. apply (slice_mid [] (ov_errs o)); [reflexivity|exact H1].
    - apply E. now apply slice_mid.
    - rewrite (app_assoc (ov_errs o)). apply C. rewrite app_length. lia.
    - rewrite (app_assoc (ov_errs o)), (app_assoc (_ ++ _) (ck_write _)). apply C. rewrite !app_length. cbn [length ck_write]. lia.
    - apply E. rewrite (app_assoc (ov_errs o)), (app_assoc (_ ++ _) (ck_write _)), (app_assoc (_ ++ _) (ck_write _)), <- (app_nil_r (ov_sponge o)).
      rewrite app_nil_r at 2. apply slice_mid; [rewrite !app_length; cbn [length ck_write]; lia|exact H3].
  Qed.
  Lemma ie_back m n (ie : list (list F)) : ie_sized m n ie -> Forall2 (Forall2 er) (load_ie m n (concat ie)) (map (map wir) ie).
  Proof.
    intros (L & H). subst n. unfold load_ie.
    assert (K : forall (a : list F) s, length a = (s * num_error_terms m)%nat ->
      Forall2 (Forall2 er) (map (fun i => slice (a ++ concat ie) (i * num_error_terms m) (num_error_terms m)) (seq s (length ie))) (map (map wir) ie)).
    { induction H as [|x ie Hx _ IH]; intros a s La; cbn [length seq map]; constructor.
      - cbn [concat]. rewrite slice_mid; auto. apply ers_refl.
      - cbn [concat]. rewrite app_assoc. apply IH. rewrite app_length. lia. }
    apply (K [] 0%nat eq_refl).
  Qed.
  Lemma query_back (q : queryout F) : qorel eq true (load_query (F := F) f1 (query_write q)) (query_of F false q).
  Proof. split; [|split; [|split]]; try split; repeat split; cbn; intros; try (destruct i; reflexivity); reflexivity. Qed.
  Lemma eval_back (e : evalout F) : eorel eq true (load_eval (F := F) f1 (eval_write e)) (eval_of F false e).
  Proof. repeat split; cbn; intros; try (destruct i; reflexivity); reflexivity. Qed.
End Back.

(** ** every stage content is a written value *)
Section Surj.
  Context {F : Field}.
  Lemma split_at {A : Type} (l : list A) a b : length l = a + b -> exists x y, l = x ++ y /\ length x = a /\ length y = b.
  Proof. intros H. exists (firstn a l), (skipn a l). rewrite firstn_skipn, firstn_length, skipn_length. repeat split; lia. Qed.
  Ltac spread l H := repeat (destruct l as [|? l]; [discriminate H|]); destruct l; [clear H|discriminate H].
  Lemma u_surj (l : list F) : length l = unified_wires -> exists u, u_write u = l.
  Proof.
    intros H. change unified_wires with 29 in H.
    exists (mk_uvals
      (fun p => let o := uoff uall (FP p) in (nth o l f0, nth (o + 1) l f0)) (fun x => nth (uoff uall (FE x)) l f0)).
    spread l H. reflexivity.
  Qed.
  Lemma pv_surj hs (l : list F) : length l = pin_wires hs -> exists c, headers_of hs c /\ pv_write c = l.
  Proof.
    intros H. unfold pin_wires in H.
    destruct (split_at l hs (hs + (hs + (1 + unified_wires))) ltac:(lia)) as (a & l1 & -> & La & L1).
    destruct (split_at l1 _ _ L1) as (b & l2 & -> & Lb & L2). destruct (split_at l2 _ _ L2) as (c & l3 & -> & Lc & L3).
    destruct l3 as [|x l3]; [discriminate|]. destruct (u_surj l3) as (u & <-); [cbn [length] in L3; lia|].
    exists (mk_pvals a b c x u). split; [now repeat split|reflexivity].
  Qed.
  Lemma pre_surj hs (l : list F) : length l = pre_wires hs -> exists a b, headers_of hs a /\ headers_of hs b /\ pre_write a b = l.
  Proof.
    intros H. destruct (split_at l (pin_wires hs) (pin_wires hs) ltac:(unfold pre_wires in H; lia)) as (x & y & -> & Lx & Ly).
    destruct (pv_surj hs x Lx) as (a & Ha & <-). destruct (pv_surj hs y Ly) as (b & Hb & <-). exists a, b. auto.
  Qed.
  Lemma oe_surj n t (l : list F) : length l = oe_wires n t -> exists o, oe_sized n t o /\ oe_write o = l.
  Proof.
    intros H. unfold oe_wires in H.
    destruct (split_at l (num_error_terms n) (n + (6 + t)) ltac:(lia)) as (a & l1 & -> & La & L1).
    destruct (split_at l1 _ _ L1) as (b & l2 & -> & Lb & L2). destruct (split_at l2 _ _ L2) as (c & l3 & -> & Lc & L3).
    destruct c as [|x0 [|x1 [|x2 [|x3 [|x4 [|x5 [|x6 c]]]]]]]; try discriminate.
    exists (mk_ovals a b (mk_child_ky x0 x1 x2) (mk_child_ky x3 x4 x5) l3). split; [now repeat split|reflexivity].
  Qed.
  Lemma ie_surj m n (l : list F) : length l = ie_wires m n -> exists ie, ie_sized m n ie /\ concat ie = l.
  Proof.
    unfold ie_wires. revert l. induction n as [|n IH]; intros l H.
    - destruct l; [|discriminate]. exists []. repeat split; constructor.
    - destruct (split_at l (num_error_terms m) (n * num_error_terms m) ltac:(lia)) as (a & l1 & -> & La & L1).
      destruct (IH l1 L1) as (ie & [L F0] & <-). exists (a :: ie). split; [split; [cbn; lia|constructor; auto]|reflexivity].
  Qed.
  Lemma cq_surj (l : list F) : length l = 16 -> exists c, cq_write c = l.
  Proof.
    intros H. exists (mk_cquery (fun i => nth (rx_ix i) l f0) (nth 11 l f0) (nth 12 l f0) (nth 13 l f0) (nth 14 l f0) (nth 15 l f0)).
    spread l H. reflexivity.
  Qed.
  Lemma query_surj (l : list F) : length l = query_wires -> exists q, query_write q = l.
  Proof.
    intros H. destruct (split_at l 14 (16 + 16) H) as (a & l1 & -> & La & L1). destruct (split_at l1 _ _ L1) as (b & c & -> & Lb & Lc).
    destruct (cq_surj b Lb) as (cl & <-). destruct (cq_surj c Lc) as (cr & <-).
    exists (mk_queryout (fun i => nth (ic_ix i) a f0) (nth 13 a f0) cl cr). clear - La. spread a La. reflexivity.
  Qed.
  Lemma ce_surj (l : list F) : length l = 15 -> exists c, ceval_write c = l.
  Proof.
    intros H. exists (mk_ceval (fun i => nth (rx_ix i) l f0) (nth 11 l f0) (nth 12 l f0) (nth 13 l f0) (nth 14 l f0)).
    spread l H. reflexivity.
  Qed.
  Lemma eval_surj (l : list F) : length l = eval_wires -> exists e, eval_write e = l.
  Proof.
    intros H. destruct (split_at l 15 (15 + 6) H) as (a & l1 & -> & La & L1). destruct (split_at l1 _ _ L1) as (b & c & -> & Lb & Lc).
    destruct (ce_surj a La) as (cl & <-). destruct (ce_surj b Lb) as (cr & <-). 
    destruct c as [|x0 [|x1 [|x2 [|x3 [|x4 [|x5 [|x6 c]]]]]]]; try discriminate.
    exists (mk_evalout cl cr x0 x1 x2 x3 x4 x5). reflexivity.
  Qed.
  Lemma pre_length hs (l r : pvals F) : headers_of hs l -> headers_of hs r -> length (pre_write l r) = pre_wires hs.
  Proof. intros H1 H2. unfold pre_write, pre_wires. rewrite app_length, (pv_length hs l H1), (pv_length hs r H2). lia. Qed.
  Lemma oe_length n t (o : ovals F) : oe_sized n t o -> length (oe_write o) = oe_wires n t.
  Proof. intros (H1 & H2 & H3). unfold oe_write, oe_wires. rewrite !app_length, H1, H2, H3. cbn [length ck_write]. lia. Qed.
  Lemma ie_length m n (ie : list (list F)) : ie_sized m n ie -> length (concat ie) = ie_wires m n.
  Proof.
    intros (L & H). subst n. unfold ie_wires. induction H as [|x l Hx _ IH]; [reflexivity|]. cbn [concat length Nat.mul]. rewrite app_length, Hx, IH. reflexivity.
  Qed.
End Surj.

(** ** the circuits on written stage values *)
Section Circ.
  Context {F : Field}.
  Variable cb : F.
  Variables (hs M N : nat).
  Variable P : pparams F.
  Variables (l r : pvals F) (oe : ovals F) (ie : list (list F)) (q : queryout F) (e : evalout F).
  Hypothesis Hl : headers_of hs l.
  Hypothesis Hr : headers_of hs r.
  Hypothesis Ho : oe_sized N (pp_T P) oe.
  Hypothesis Hi : ie_sized M N ie.
  Lemma fst_holds (p : G F F (list (elem F F) * option coverage)) res : holds (fst_out p) res <-> exists c, holds p (res, c).
  Proof.
    unfold fst_out. rewrite holds_bind. split.
    - intros ([x c] & H1 & H2). cbn [holds fst] in H2. subst. eauto.
    - intros (c & H). exists (res, c). split; [exact H|reflexivity].
  Qed.
  Lemma prel_sym (x y : preamble F F) : prerel eq true x y -> prerel eq true y x.
  Proof.
    assert (E : forall a b : elem F F, erel eq true a b -> erel eq true b a) by (intros a b H; apply erel_eq in H; subst; split; reflexivity).
    assert (L : forall a b : list (elem F F), Forall2 (erel eq true) a b -> Forall2 (erel eq true) b a).
    { intros a b H. apply erels_eq in H. subst. apply ers_refl. }
    assert (K : forall a b : pinputs F F, pirel eq true a b -> pirel eq true b a).
    { intros a b (H1 & H2 & H3 & H4 & [H5 H6]). split; [|split; [|split; [|split]]]; auto. split; intros f; [|auto]. destruct (H5 f). split; auto. }
    intros [H1 H2]. split; auto.
  Qed.
  Lemma orel_sym (x y : outer_error F F) : oerel eq true x y -> oerel eq true y x.
  Proof.
    assert (E : forall a b : elem F F, erel eq true a b -> erel eq true b a) by (intros a b H; apply erel_eq in H; subst; split; reflexivity).
    assert (L : forall a b : list (elem F F), Forall2 (erel eq true) a b -> Forall2 (erel eq true) b a).
    { intros a b H. apply erels_eq in H. subst. apply ers_refl. }
    intros (H1 & H2 & (A1 & A2 & A3) & (B1 & B2 & B3) & H5). split; [|split; [|split; [|split]]]; auto; repeat split; try apply E; auto.
  Qed.
  Lemma irel_sym (x y : list (list (elem F F))) : Forall2 (Forall2 (erel eq true)) x y -> Forall2 (Forall2 (erel eq true)) y x.
  Proof. induction 1 as [|a b l0 l1 H _ IH]; constructor; auto. apply erels_eq in H. subst. apply ers_refl. Qed.
  Lemma qrel_sym (x y : queryout (elem F F)) : qorel eq true x y -> qorel eq true y x.
  Proof.
    assert (E : forall a b : elem F F, erel eq true a b -> erel eq true b a) by (intros a b H; apply erel_eq in H; subst; split; reflexivity).
    assert (K : forall a b : cquery (elem F F), cqrel eq true a b -> cqrel eq true b a).
    { intros a b (H1 & H2 & H3 & H4 & H5 & H6). split; [intros i; apply E, H1|]. repeat split; apply E; assumption. }
    intros (H1 & H2 & H3 & H4). split; [intros i; apply E, H1|]. split; [apply E, H2|]. auto.
  Qed.
  Lemma verel_sym (x y : evalout (elem F F)) : eorel eq true x y -> eorel eq true y x.
  Proof.
    assert (E : forall a b : elem F F, erel eq true a b -> erel eq true b a) by (intros a b H; apply erel_eq in H; subst; split; reflexivity).
    assert (K : forall a b : ceval (elem F F), cerel eq true a b -> cerel eq true b a).
    { intros a b (H1 & H2 & H3 & H4 & H5). split; [intros i; apply E, H1|]. repeat split; apply E; assumption. }
    intros (H1 & H2 & H3 & H4 & H5 & H6 & H7 & H8). split; [auto|]. split; [auto|]. repeat split; apply E; assumption.
  Qed.
  Lemma h1_iff of_u tag log2 res : holds (s_hashes_1 F cb hs N P of_u tag log2 F f1 [pre_write l r; oe_write oe]) res <->
    exists c, holds (hashes_1 F F f1 false cb P of_u tag log2 (pre_of false l r) (oe_of false oe) None) (res, c).
  Proof.
    unfold s_hashes_1. rewrite fst_holds. cbn [stage_of nth].
    split; intros (c & H); exists c; revert H; apply out_holds; apply hashes_1_p; try reflexivity;
      auto using pre_back, oe_back, prel_sym, orel_sym.
  Qed.
  Lemma h2_iff res x : holds (s_hashes_2 F cb N P F f1 [x; oe_write oe]) res <->
    exists c, holds (hashes_2 F F f1 false cb P (oe_of false oe) None) (res, c).
  Proof.
    unfold s_hashes_2. rewrite fst_holds. cbn [stage_of nth].
    split; intros (c & H); exists c; revert H; apply out_holds; apply hashes_2_p; try reflexivity;
      auto using pre_back, oe_back, prel_sym, orel_sym.
  Qed.
  Lemma inner_iff res : holds (s_inner F cb hs M N P F f1 [pre_write l r; oe_write oe; concat ie]) res <->
    exists c, holds (inner_collapse F F f1 false cb M (pre_of false l r) (oe_of false oe) (map (map wir) ie) None) (res, c).
  Proof.
    unfold s_inner. rewrite fst_holds. cbn [stage_of nth].
    split; intros (c & H); exists c; revert H; apply out_holds; apply inner_collapse_p; try reflexivity;
      auto using pre_back, oe_back, prel_sym, orel_sym, ie_back, irel_sym.
  Qed.
  Lemma outer_iff res : holds (s_outer F cb hs N P F f1 [pre_write l r; oe_write oe]) res <->
    exists c, holds (outer_collapse F F f1 false cb N (pre_of false l r) (oe_of false oe) None) (res, c).
  Proof.
    unfold s_outer. rewrite fst_holds. cbn [stage_of nth].
    split; intros (c & H); exists c; revert H; apply out_holds; apply outer_collapse_p; try reflexivity;
      auto using pre_back, oe_back, prel_sym, orel_sym.
  Qed.
  Lemma v_iff k nbits gen fsqrt zeta omega res : holds (s_compute_v F cb hs M N k nbits gen fsqrt zeta omega F f1 [pre_write l r; query_write q; eval_write e]) res <->
    exists c, holds (compute_v F F f1 false cb k M N nbits gen fsqrt zeta omega (pre_of false l r) (query_of F false q) (eval_of F false e) None) (res, c).
  Proof.
    unfold s_compute_v. rewrite fst_holds. cbn [stage_of nth].
    split; intros (c & H); exists c; revert H; apply out_holds; apply compute_v_p; try reflexivity;
      auto using pre_back, prel_sym, query_back, eval_back, qrel_sym, verel_sym.
  Qed.
End Circ.
