(** Trace generation: whatever the scheduling, the assembled trace holds each
    scope's gate rows at the place the floor plan gives them. *)
From Coq Require Import List Arith Lia Bool Permutation Sorted Ring Field.
From Verif Require Import FieldDef ArithModel ArithSpec FFTModel FFTProofs SparseModel SparseSpec SparseProofs
  SparseProofs2 CircModel TraceModel CircSpec CircProofs.
Import ListNotations.
Local Opaque list_sum.

(** ** paths *)
Lemma path_leb_refl p : path_leb p p = true.
Proof. induction p as [|x p IH]; cbn [path_leb]; auto. rewrite Nat.ltb_irrefl. exact IH. Qed.
Lemma path_leb_total p : forall q, path_leb p q = true \/ path_leb q p = true.
Proof.
  induction p as [|x p IH]; intros [|y q]; cbn [path_leb]; auto.
  destruct (Nat.ltb_spec x y), (Nat.ltb_spec y x); auto.
Qed.
Lemma path_leb_anti p : forall q, path_leb p q = true -> path_leb q p = true -> p = q.
Proof.
  induction p as [|x p IH]; intros [|y q]; cbn [path_leb]; auto; try discriminate.
  destruct (Nat.ltb_spec x y), (Nat.ltb_spec y x); try discriminate; try lia.
  intros. assert (x = y) as -> by lia. f_equal. auto.
Qed.
Lemma path_leb_trans p : forall q r, path_leb p q = true -> path_leb q r = true -> path_leb p r = true.
Proof.
  induction p as [|x p IH]; intros [|y q] [|z r]; cbn [path_leb]; auto; try discriminate.
  destruct (Nat.ltb_spec x y), (Nat.ltb_spec y x), (Nat.ltb_spec y z), (Nat.ltb_spec z y),
    (Nat.ltb_spec x z), (Nat.ltb_spec z x); try discriminate; try lia; auto.
  intros. eapply IH; eauto.
Qed.

Lemma NoDup_app_disj {A : Type} (l r : list A) : NoDup l -> NoDup r ->
  (forall x, In x l -> ~ In x r) -> NoDup (l ++ r).
Proof.
  induction l as [|a l IH]; intros Hl Hr H; auto. inversion Hl; subst. cbn [app]. constructor.
  - rewrite in_app_iff. intros [X|X]; [auto|]. apply (H a); auto. now left.
  - apply IH; auto. intros x Hx. apply H. now right.
Qed.
Lemma upd_app_r {A : Type} (l r : list A) i v : upd (l ++ r) (length l + i) v = l ++ upd r i v.
Proof. induction l; cbn; auto. now f_equal. Qed.

Lemma Permutation_concat_perm {A : Type} (l l' : list (list A)) : Permutation l l' -> Permutation (concat l) (concat l').
Proof.
  induction 1; cbn [concat]; auto.
  - now apply Permutation_app_head.
  - rewrite !app_assoc. apply Permutation_app_tail, Permutation_app_comm.
  - etransitivity; eauto.
Qed.

Lemma Permutation_app_swap3 {A : Type} (a b c : list A) : Permutation (a ++ b ++ c) (b ++ a ++ c).
Proof. rewrite !app_assoc. apply Permutation_app_tail, Permutation_app_comm. Qed.

Lemma skipn_add {A : Type} (l : list A) : forall a b, skipn a (skipn b l) = skipn (b + a) l.
Proof. induction l as [|x l IH]; intros a [|b]; cbn [skipn Nat.add]; auto. now rewrite skipn_nil. Qed.

Section TraceP.
  Variable F : Field.
  Add Field FFtr : (f_theory F).
  Local Notation row := (F * F * F * F)%type.
  Local Notation aseg := (list nat * tseg F)%type.
  Definition ra (r : row) : F := fst (fst (fst r)).
  Definition rb (r : row) : F := snd (fst (fst r)).
  Definition rc (r : row) : F := snd (fst r).
  Definition rd (r : row) : F := snd r.
  Definition seg_app (g : tseg F) (l : list row) : tseg F :=
    mk_tseg (tg_a g ++ map ra l) (tg_b g ++ map rb l) (tg_c g ++ map rc l) (tg_d g ++ map rd l).
  Definition empty_seg : tseg F := mk_tseg [] [] [] [].
  Definition seg_of (l : list row) : tseg F := seg_app empty_seg l.
  Definition seg_ok (g : tseg F) : Prop :=
    length (tg_b g) = length (tg_a g) /\ length (tg_c g) = length (tg_a g) /\ length (tg_d g) = length (tg_a g).

  (** ** sorting *)
  Definition Rp (s t : aseg) : Prop := path_leb (fst s) (fst t) = true.
  Lemma insert_perm (s : aseg) l : Permutation (path_insert s l) (s :: l).
  Proof.
    induction l as [|t r IH]; cbn [path_insert]; auto. destruct (path_leb (fst s) (fst t)); auto.
    rewrite perm_swap. now constructor.
  Qed.
  Lemma sort_perm (l : list aseg) : Permutation (path_sort l) l.
  Proof.
    induction l as [|s l IH]; [reflexivity|]. unfold path_sort. cbn [fold_right].
    rewrite insert_perm. constructor. exact IH.
  Qed.
  Lemma insert_sorted (s : aseg) l : StronglySorted Rp l -> StronglySorted Rp (path_insert s l).
  Proof.
    induction l as [|t r IH]; intros H; cbn [path_insert].
    - repeat constructor.
    - inversion H as [|? ? Hs Hf]; subst. destruct (path_leb (fst s) (fst t)) eqn:E.
      + constructor; auto. constructor; [exact E|]. eapply Forall_impl; [|exact Hf].
        intros u Hu. unfold Rp in *. eapply path_leb_trans; eauto.
      + constructor; [auto|]. apply Forall_forall. intros u Hu.
        apply (Permutation_in _ (insert_perm s r)) in Hu. destruct Hu as [<-|Hu].
        * unfold Rp. destruct (path_leb_total (fst s) (fst t)); congruence.
        * rewrite Forall_forall in Hf. auto.
  Qed.
  Lemma sort_sorted (l : list aseg) : StronglySorted Rp (path_sort l).
  Proof. induction l; [constructor|]. now apply insert_sorted. Qed.

  Lemma key_inj (l : list aseg) x y : NoDup (map fst l) -> In x l -> In y l -> fst x = fst y -> x = y.
  Proof.
    induction l as [|a l IH]; cbn [map In]; intros Hn Hx Hy E; [easy|]. inversion Hn; subst.
    destruct Hx as [->|Hx], Hy as [->|Hy]; auto.
    - exfalso. apply H1. rewrite E. now apply in_map.
    - exfalso. apply H1. rewrite <- E. now apply in_map.
  Qed.
  Lemma sorted_unique (l : list aseg) : forall l', NoDup (map fst l) -> StronglySorted Rp l -> StronglySorted Rp l' ->
    Permutation l l' -> l = l'.
  Proof.
    induction l as [|a l IH]; intros l' Hn H H' P.
    - apply Permutation_nil in P. auto.
    - destruct l' as [|b l']; [apply Permutation_sym, Permutation_nil in P; discriminate|].
      assert (a = b) as <-.
      { inversion H; inversion H'; subst. apply (key_inj (a :: l)); auto; [now left| |].
        - apply Permutation_sym in P. eapply Permutation_in; [exact P|now left].
        - assert (Hb : In b (a :: l)) by (apply (Permutation_in _ (Permutation_sym P)); now left).
          assert (Ha : In a (b :: l')) by (apply (Permutation_in _ P); now left).
          destruct Hb as [->|Hb]; auto. destruct Ha as [->|Ha]; auto.
          rewrite Forall_forall in H3, H7. apply path_leb_anti; [now apply H3|now apply H7]. }
      f_equal. apply Permutation_cons_inv in P. inversion H; inversion H'; subst. inversion Hn; subst. auto.
  Qed.

  (** ** the expected segments, with their paths *)
  Fixpoint dfs (prefix : list nat) (ctr : nat) (p : prog F) : list aseg :=
    match p with
    | PEnd => []
    | PRoutine _ _ body _ k =>
        (prefix ++ [ctr], seg_of (rows false body)) :: dfs (prefix ++ [ctr]) 0 body ++ dfs prefix (S ctr) k
    | PGate _ _ _ _ k | PMul _ _ _ k | PAlloc _ k | PAdd _ k | PEnforce _ k | PClone _ k
    | PDrop _ k => dfs prefix ctr k
    end.
  Lemma dfs_rows p : forall prefix ctr, map snd (dfs prefix ctr p) = map seg_of (sub_rows p).
  Proof.
    induction p; intros prefix ctr; cbn [dfs sub_rows map snd]; auto.
    rewrite !map_app. f_equal. now f_equal.
  Qed.
  Lemma dfs_paths p : forall prefix ctr s, In s (dfs prefix ctr p) ->
    exists c rest, fst s = prefix ++ c :: rest /\ ctr <= c.
  Proof.
    induction p as [|? ? ? ? k IH|? ? ? k IH|? k IH|? k IH|? k IH|? k IH|? k IH|kn ins body IHb outs k IHk];
      intros prefix ctr s H; cbn [dfs In] in H; eauto; [easy|].
    destruct H as [<-|H]; [exists ctr, []; auto|]. apply in_app_iff in H. destruct H as [H|H].
    - destruct (IHb _ _ _ H) as (c & rest & E & Hc). exists ctr, (c :: rest). split; auto.
      rewrite E, <- app_assoc. reflexivity.
    - destruct (IHk _ _ _ H) as (c & rest & E & Hc). exists c, rest. split; auto. lia.
  Qed.
  Lemma leb_prefix p q r : path_leb (p ++ q) (p ++ r) = path_leb q r.
  Proof. induction p as [|x p IH]; cbn [app path_leb]; auto. now rewrite Nat.ltb_irrefl. Qed.
  Lemma leb_prefix0 p q : path_leb p (p ++ q) = true.
  Proof. rewrite <- (app_nil_r p) at 1. now rewrite leb_prefix. Qed.
  Lemma sorted_app (l r : list aseg) : StronglySorted Rp l -> StronglySorted Rp r ->
    (forall x y, In x l -> In y r -> Rp x y) -> StronglySorted Rp (l ++ r).
  Proof.
    induction l as [|a l IH]; intros Hl Hr H; auto. cbn [app]. inversion Hl; subst. constructor.
    - apply IH; auto. intros. apply H; auto. now right.
    - apply Forall_app. split; auto. apply Forall_forall. intros y Hy. apply H; auto. now left.
  Qed.
  Lemma dfs_sorted p : forall prefix ctr, StronglySorted Rp (dfs prefix ctr p) /\ NoDup (map fst (dfs prefix ctr p)).
  Proof.
    induction p as [|? ? ? ? k IH|? ? ? k IH|? k IH|? k IH|? k IH|? k IH|? k IH|kn ins body IHb outs k IHk];
      intros prefix ctr; cbn [dfs]; auto; [split; constructor|].
    destruct (IHb (prefix ++ [ctr]) 0) as [B1 B2], (IHk prefix (S ctr)) as [K1 K2].
    assert (X : forall x y, In x (dfs (prefix ++ [ctr]) 0 body) -> In y (dfs prefix (S ctr) k) ->
                Rp x y /\ fst x <> fst y).
    { intros x y Hx Hy. destruct (dfs_paths _ _ _ _ Hx) as (c & rest & E & Hc).
      destruct (dfs_paths _ _ _ _ Hy) as (c' & rest' & E' & Hc'). unfold Rp. rewrite E, E'.
      rewrite <- app_assoc, leb_prefix. cbn [app path_leb].
      destruct (Nat.ltb_spec ctr c'); try lia. split; auto. intros H1.
      apply app_inv_head in H1. injection H1; intros; lia. }
    split.
    - constructor; [apply sorted_app; auto; intros; now apply X|].
      apply Forall_forall. intros y Hy. unfold Rp. cbn [fst]. apply in_app_iff in Hy. destruct Hy as [Hy|Hy].
      + destruct (dfs_paths _ _ _ _ Hy) as (c & rest & E & _). rewrite E. apply leb_prefix0.
      + destruct (dfs_paths _ _ _ _ Hy) as (c & rest & E & Hc). rewrite E, leb_prefix. cbn [path_leb].
        destruct (Nat.ltb_spec ctr c); auto; lia.
    - cbn [map fst]. constructor.
      + rewrite map_app, in_app_iff. intros [H|H]; apply in_map_iff in H; destruct H as (y & E & Hy).
        * destruct (dfs_paths _ _ _ _ Hy) as (c & rest & E' & _). rewrite E' in E.
          apply (f_equal (@length nat)) in E. rewrite !app_length in E. cbn in E. lia.
        * destruct (dfs_paths _ _ _ _ Hy) as (c & rest & E' & Hc). rewrite E' in E.
          apply app_inv_head in E. injection E; intros; lia.
      + rewrite map_app. apply NoDup_app_disj; auto.
        intros q H1 H2. apply in_map_iff in H1, H2. destruct H1 as (x & <- & Hx), H2 as (y & E & Hy).
        destruct (X x y Hx Hy) as [_ N]. apply N. auto.
  Qed.

  (** ** running a program *)
  Definition set_avail_d (av : option nat) (v : F) (g : tseg F) : tseg F :=
    match av with Some i => seg_set_d i v g | None => g end.
  Definition is_some {A : Type} (o : option A) : bool := match o with Some _ => true | None => false end.
  Definition av_ok (av : option nat) (g : tseg F) : Prop :=
    match av with Some i => i < length (tg_d g) /\ nth_error (tg_d g) i = Some f0 | None => True end.

  Lemma seg_app_nil g : seg_app g [] = g.
  Proof. destruct g. unfold seg_app. cbn. now rewrite !app_nil_r. Qed.
  Lemma push_app g a b c d l : seg_app (seg_push a b c d g) l = seg_app g ((a, b, c, d) :: l).
  Proof. unfold seg_app, seg_push. cbn. now rewrite <- !app_assoc. Qed.
  Lemma set_d_push i (v : F) (g : tseg F) a b c d : i < length (tg_d g) ->
    seg_set_d i v (seg_push a b c d g) = seg_push a b c d (seg_set_d i v g).
  Proof. intros H. unfold seg_set_d, seg_push. cbn. now rewrite upd_app_l. Qed.
  Lemma set_d_zero i (g : tseg F) : nth_error (tg_d g) i = Some f0 -> seg_set_d i f0 g = g.
  Proof. intros H. destruct g. unfold seg_set_d. cbn in *. now rewrite upd_same. Qed.
  Lemma seg_ok_push (g : tseg F) a b c d : seg_ok g -> seg_ok (seg_push a b c d g).
  Proof. unfold seg_ok, seg_push. cbn. rewrite !app_length. cbn. lia. Qed.
  Lemma av_ok_push av g a b c d : av_ok av g -> av_ok av (seg_push a b c d g).
  Proof.
    destruct av as [i|]; cbn; auto. intros [H1 H2]. rewrite app_length. split; [lia|].
    now rewrite nth_error_app1.
  Qed.
  Lemma set_avail_push av v g a b c d : av_ok av g ->
    set_avail_d av v (seg_push a b c d g) = seg_push a b c d (set_avail_d av v g).
  Proof. destruct av as [i|]; cbn; auto. intros [H _]. now apply set_d_push. Qed.

  Lemma aseg_new_snoc pre c : aseg_new (F := F) (pre ++ [c]) = (pre ++ [c], empty_seg).
  Proof. unfold aseg_new. destruct (pre ++ [c]) eqn:E; [now destruct pre|reflexivity]. Qed.

  Lemma tr_run_ok (p : prog F) : forall segs bts av cur ctr prefix path g,
    nth_error segs cur = Some (path, g) -> seg_ok g -> av_ok av g ->
    exists e', tr_run p (mk_teval segs bts (mk_tscope av cur ctr prefix)) = Some e' /\
      ts_cur (ev_scope e') = cur /\
      exists inl bat,
        ev_segs e' = upd segs cur (path, seg_app (set_avail_d av (next_alloc p) g) (rows (is_some av) p)) ++ inl /\
        ev_batches e' = bts ++ bat /\
        Permutation (inl ++ concat bat) (dfs prefix ctr p).
  Proof.
    induction p as [|a b c d k IH|a b c k IH|v k IH|lc k IH|lc k IH|w k IH|i k IH|kn ins body IHb outs k IHk];
      intros segs bts av cur ctr prefix path g Hn Hg Ha; cbn [tr_run next_alloc rows dfs ev_scope ev_segs ev_batches];
      try (now apply IH).
    - eexists. split; [reflexivity|]. split; [reflexivity|]. exists [], []. cbn [ev_segs ev_batches].
      rewrite !app_nil_r. split; [|split; reflexivity].
      assert (E : set_avail_d av f0 g = g) by (destruct av as [i|]; cbn; auto; apply set_d_zero, Ha).
      rewrite E, seg_app_nil. symmetry. now apply upd_same.
    - unfold with_seg. cbn [ev_segs ts_cur ev_batches]. rewrite Hn.
      assert (Hl : cur < length segs) by (apply nth_error_Some; congruence).
      edestruct (IH (upd segs cur (path, seg_push a b c d g)) bts av cur ctr prefix path (seg_push a b c d g))
        as (e' & E & C & inl & bat & S1 & S2 & P).
      + now apply nth_error_upd_same.
      + now apply seg_ok_push.
      + now apply av_ok_push.
      + exists e'. split; [exact E|]. split; [exact C|]. exists inl, bat. rewrite S1, upd_upd.
        rewrite set_avail_push, push_app by auto. auto.
    - unfold with_seg. cbn [ev_segs ts_cur ev_batches]. rewrite Hn.
      assert (Hl : cur < length segs) by (apply nth_error_Some; congruence).
      edestruct (IH (upd segs cur (path, seg_push a b c f0 g)) bts av cur ctr prefix path (seg_push a b c f0 g))
        as (e' & E & C & inl & bat & S1 & S2 & P).
      + now apply nth_error_upd_same.
      + now apply seg_ok_push.
      + now apply av_ok_push.
      + exists e'. split; [exact E|]. split; [exact C|]. exists inl, bat. rewrite S1, upd_upd.
        rewrite set_avail_push, push_app by auto. auto.
    - assert (Hl : cur < length segs) by (apply nth_error_Some; congruence).
      destruct av as [i|]; cbn [ts_avail ts_cur ts_counter ts_prefix]; unfold with_seg;
        cbn [ev_segs ts_cur ev_batches]; rewrite Hn.
      + destruct Ha as [Hi Hz].
        edestruct (IH (upd segs cur (path, seg_set_d i v g)) bts None cur ctr prefix path (seg_set_d i v g))
          as (e' & E & C & inl & bat & S1 & S2 & P).
        * now apply nth_error_upd_same.
        * destruct Hg as (? & ? & ?). unfold seg_ok, seg_set_d. cbn. rewrite upd_length. auto.
        * exact I.
        * exists e'. split; [exact E|]. split; [exact C|]. exists inl, bat. rewrite S1, upd_upd. auto.
      + unfold cur_len. cbn [ev_segs ev_scope ts_cur]. rewrite Hn.
        edestruct (IH (upd segs cur (path, seg_push f0 v f0 f0 g)) bts (Some (length (tg_a g))) cur ctr prefix path
                      (seg_push f0 v f0 f0 g)) as (e' & E & C & inl & bat & S1 & S2 & P).
        * now apply nth_error_upd_same.
        * now apply seg_ok_push.
        * destruct Hg as (? & ? & Hd). cbn. rewrite <- Hd, app_length. cbn. split; [lia|].
          rewrite nth_error_app2, Nat.sub_diag by lia. reflexivity.
        * exists e'. split; [exact E|]. split; [exact C|]. exists inl, bat. rewrite S1, upd_upd.
          refine (conj _ (conj S2 P)). cbn [is_some].
          rewrite <- push_app. do 4 f_equal. destruct Hg as (? & ? & Hd). unfold set_avail_d, seg_set_d, seg_push. cbn.
          f_equal. rewrite <- Hd. rewrite <- (Nat.add_0_r (length (tg_d g))), upd_app_r. reflexivity.
    - assert (Hl : cur < length segs) by (apply nth_error_Some; congruence).
      cbn [ts_avail ts_cur ts_counter ts_prefix]. destruct kn.
      + unfold ev_new. rewrite aseg_new_snoc.
        destruct (IHb [(prefix ++ [ctr], empty_seg)] [] None 0 0 (prefix ++ [ctr]) (prefix ++ [ctr]) empty_seg)
          as (ce & E & _ & inl & bat & S1 & S2 & P); [reflexivity|repeat split|exact I|].
        rewrite E.
        destruct (IHk segs (bts ++ ev_segs ce :: ev_batches ce) av cur (S ctr) prefix path g Hn Hg Ha)
          as (e' & E' & C' & inl' & bat' & S1' & S2' & P').
        exists e'. split; [exact E'|]. split; [exact C'|]. exists inl', ((ev_segs ce :: ev_batches ce) ++ bat').
        split; [exact S1'|]. split; [now rewrite S2', <- app_assoc|].
        rewrite S1, S2. cbn [app upd concat rows is_some set_avail_d].
        rewrite concat_app.
        change (seg_app empty_seg (rows false body)) with (seg_of (rows false body)).
        set (r0 := (prefix ++ [ctr], seg_of (rows false body)) : aseg).
        transitivity (((r0 :: inl) ++ concat bat) ++ inl' ++ concat bat').
        { cbn [app]. rewrite <- ?app_assoc. etransitivity; [apply Permutation_sym, Permutation_middle|]. constructor.
          rewrite (app_assoc inl (concat bat)), (app_assoc inl (concat bat) (inl' ++ _)). apply Permutation_app_swap3. }
        cbn [app]. constructor. now apply Permutation_app.
      + rewrite aseg_new_snoc.
        destruct (IHb (segs ++ [(prefix ++ [ctr], empty_seg)]) bts None (length segs) 0 (prefix ++ [ctr])
                      (prefix ++ [ctr]) empty_seg)
          as (ce & E & C & inl & bat & S1 & S2 & P);
          [rewrite nth_error_app2, Nat.sub_diag by lia; reflexivity|repeat split|exact I|].
        rewrite E, C, Nat.eqb_refl.
        assert (X : upd (segs ++ [(prefix ++ [ctr], empty_seg)]) (length segs)
                 (prefix ++ [ctr], seg_app (set_avail_d None (next_alloc body) empty_seg) (rows (is_some (@None nat)) body))
               = segs ++ [(prefix ++ [ctr], seg_of (rows false body))]).
        { rewrite <- (Nat.add_0_r (length segs)), upd_app_r. reflexivity. }
        rewrite X in S1.
        destruct (IHk (ev_segs ce) (ev_batches ce) av cur (S ctr) prefix path g)
          as (e' & E' & C' & inl' & bat' & S1' & S2' & P'); auto.
        { rewrite S1, <- app_assoc, nth_error_app1; auto. }
        exists e'. split; [exact E'|]. split; [exact C'|].
        exists ((prefix ++ [ctr], seg_of (rows false body)) :: inl ++ inl'), (bat ++ bat').
        split; [|split].
        * rewrite S1', S1, <- !app_assoc, upd_app_l by auto. rewrite <- app_assoc. reflexivity.
        * rewrite S2', S2, app_assoc. reflexivity.
        * cbn [app]. constructor. rewrite concat_app, <- P, <- P'. rewrite <- !app_assoc.
          apply Permutation_app_head. rewrite !app_assoc. apply Permutation_app_tail. apply Permutation_app_comm.
  Qed.

  Definition root_row : row := (f0, f0, f0, f0).
  Lemma trace_eval_ok order (body : prog F) : (forall l, Permutation (order l) l) ->
    trace_eval order body = Some (map seg_of ((root_row :: rows false body) :: sub_rows body)).
  Proof.
    intros Ho. unfold trace_eval, ev_new, aseg_new.
    destruct (tr_run_ok body [([], mk_tseg [f0] [f0] [f0] [f0])] [] None 0 0 [] [] (mk_tseg [f0] [f0] [f0] [f0]))
      as (e & E & _ & inl & bat & S1 & S2 & P); [reflexivity|repeat split|exact I|].
    rewrite E. cbn [app] in S2. 
    set (root := ([] : list nat, seg_of (root_row :: rows false body)) : aseg).
    change (ev_segs e = root :: inl) in S1. rewrite S1, S2.
    assert (Hr : root = ([], seg_of (root_row :: rows false body))) by reflexivity.
    destruct (dfs_sorted body [] 0) as [D1 D2].
    assert (Hfull : root :: dfs [] 0 body = path_sort ((root :: inl) ++ concat (order bat))).
    { apply sorted_unique.
      - cbn [map]. constructor; auto. intros H. apply in_map_iff in H. destruct H as (s & Es & Hs).
        destruct (dfs_paths _ _ _ _ Hs) as (c & rest & Ec & _). rewrite Ec in Es. discriminate Es.
      - constructor; auto. apply Forall_forall. intros s Hs. reflexivity.
      - apply sort_sorted.
      - rewrite sort_perm. cbn [app]. constructor. rewrite <- P. apply Permutation_app_head.
        apply Permutation_concat_perm. symmetry. apply Ho. }
    cbn [app] in Hfull. unfold finish. cbn [app]. rewrite <- Hfull. rewrite Hr at 1. cbv iota.
    f_equal. cbn [map]. rewrite dfs_rows, Hr. reflexivity.
  Qed.

  (** ** sizes *)
  Lemma rows_length (p : prog F) : forall h, length (rows h p) = used h p.
  Proof.
    induction p as [|a b c d k IH|a b c k IH|v k IH|lc k IH|lc k IH|w k IH|i k IH|kn ins body IHb outs k IHk];
      intros h; cbn [rows length].
    - now rewrite used_end.
    - now rewrite used_gate, IH.
    - now rewrite used_mul, IH.
    - destruct h; cbn [length]; rewrite IH; [now rewrite used_alloc_half|now rewrite used_alloc_full].
    - rewrite IH. destruct h; reflexivity.
    - rewrite IH. destruct h; reflexivity.
    - rewrite IH. destruct h; reflexivity.
    - rewrite IH. destruct h; reflexivity.
    - rewrite IHk. now rewrite used_routine.
  Qed.
  Lemma sub_rows_length (p : prog F) : map (@length row) (sub_rows p) = map fst (sub_sizes p).
  Proof.
    induction p as [|a b c d k IH|a b c k IH|v k IH|lc k IH|lc k IH|w k IH|i k IH|kn ins body IHb outs k IHk];
      cbn [sub_rows sub_sizes]; auto.
    cbn [map]. rewrite !map_app, IHb, IHk, rows_length, used_scope. reflexivity.
  Qed.
  Lemma enforce_rows outs : forall h, rows h (enforce_outputs (F := F) outs) = [].
  Proof. induction outs; intros h; cbn [enforce_outputs rows]; auto. Qed.
  Lemma enforce_next outs : next_alloc (enforce_outputs (F := F) outs) = f0.
  Proof. induction outs; cbn [enforce_outputs next_alloc]; auto. Qed.
  Lemma enforce_subs outs : sub_rows (enforce_outputs (F := F) outs) = [].
  Proof. induction outs; cbn [enforce_outputs sub_rows]; auto. Qed.
  Lemma next_app (p q : prog F) : next_alloc q = f0 -> next_alloc (prog_app p q) = next_alloc p.
  Proof. intros H. induction p; cbn [prog_app next_alloc]; auto. Qed.
  Lemma rows_app (p : prog F) outs : forall h, rows h (prog_app p (enforce_outputs outs)) = rows h p.
  Proof.
    induction p; intros h; cbn [prog_app rows]; auto; try (now rewrite ?IHp, ?IHp0).
    - apply enforce_rows.
    - destruct h; [apply IHp|]. rewrite next_app by apply enforce_next. now rewrite IHp.
  Qed.
  Lemma sub_rows_app (p : prog F) outs : sub_rows (prog_app p (enforce_outputs outs)) = sub_rows p.
  Proof.
    induction p; cbn [prog_app sub_rows]; auto; [apply enforce_subs|].
    match goal with H : _ = sub_rows ?k |- _ = _ :: _ ++ sub_rows ?k => rewrite H end. reflexivity.
  Qed.
  Lemma orch_rows (body : prog F) outs :
    rows false (orchestrate body outs) = root_row :: rows false body /\
    sub_rows (orchestrate body outs) = sub_rows body.
  Proof. unfold orchestrate. cbn [rows sub_rows]. now rewrite rows_app, sub_rows_app. Qed.
  Lemma all_rows_sizes (body : prog F) outs :
    map (@length row) ((root_row :: rows false body) :: sub_rows body) = map fst (sizes (orchestrate body outs)).
  Proof.
    destruct (orch_rows body outs) as [<- <-]. unfold sizes. cbn [map]. now rewrite rows_length, sub_rows_length, used_scope.
  Qed.

  (** ** scattering *)
  Lemma scatter_ok (get : tseg F -> list F) (r : row -> F) : (forall l, get (seg_of l) = map r l) ->
    forall recs rs gs cs pre rest, map (@length row) rs = map fst recs -> length pre = gs ->
      length (concat rs) <= length rest ->
      scatter get (map seg_of rs) (floor_go gs cs recs) (pre ++ rest)
      = Some (pre ++ map r (concat rs) ++ skipn (length (concat rs)) rest).
  Proof.
    intros Hget. induction recs as [|[g c] recs IH]; intros rs gs cs pre rest Hl Hp Hr.
    - destruct rs; [|discriminate]. cbn. reflexivity.
    - destruct rs as [|l rs]; [discriminate|]. cbn [map fst] in Hl. injection Hl as Hg Hl.
      cbn [map floor_go scatter num_gates gate_start concat] in *. rewrite app_length in Hr.
      assert (Hla : length (tg_a (seg_of l)) = g) by (unfold seg_of, seg_app; cbn; now rewrite map_length).
      rewrite Hla, Nat.eqb_refl. rewrite Hget. unfold copy_at. rewrite map_length, app_length.
      destruct (Nat.leb_spec (gs + length l) (length pre + length rest)); [|lia].
      subst gs. rewrite firstn_app, Nat.sub_diag, firstn_O, app_nil_r, firstn_all.
      rewrite skipn_app. rewrite (skipn_all2 pre) by lia. cbn [app].
      replace (length pre + length l - length pre) with (length l) by lia.
      rewrite app_assoc.
      rewrite IH; auto.
      + f_equal. rewrite <- !app_assoc. f_equal. rewrite app_length, skipn_add, map_app, <- app_assoc.
        reflexivity.
      + rewrite app_length, map_length. lia.
      + rewrite skipn_length. lia.
  Qed.
  Lemma total_ok : forall recs rs gs cs, map (@length row) rs = map fst recs ->
    fold_right Nat.max 0 (map (fun ps : cseg * tseg F => gate_start (fst ps) + length (tg_a (snd ps)))
        (combine (floor_go gs cs recs) (map seg_of rs)))
    = match rs with [] => 0 | _ => gs + length (concat rs) end.
  Proof.
    induction recs as [|[g c] recs IH]; intros rs gs cs Hl; destruct rs as [|l rs]; try discriminate; auto.
    cbn [map fst] in Hl. injection Hl as Hg Hl.
    cbn [map floor_go combine fold_right fst snd gate_start concat]. rewrite IH by auto.
    unfold seg_of at 1, seg_app at 1. cbn [tg_a empty_seg app]. rewrite map_length, app_length.
    destruct rs; cbn [concat length]; lia.
  Qed.
  Lemma floor_go_len gs cs recs : length (floor_go gs cs recs) = length recs.
  Proof. revert gs cs; induction recs as [|[g c] r IH]; intros; cbn [floor_go length]; auto. Qed.

  (** the rows of the assembled trace *)
  Definition trace_rows (alpha : F) (body : prog F) : list row :=
    (f0, f1, f0, alpha) :: rows false body ++ concat (sub_rows body).
  Lemma concat_len {A : Type} (l : list (list A)) : length (concat l) = list_sum (map (@length A) l).
  Proof. induction l; [reflexivity|]. cbn [concat map]. rewrite app_length, IHl. reflexivity. Qed.
  Lemma trace_rows_length alpha (body : prog F) outs :
    length (trace_rows alpha body) = list_sum (map fst (sizes (orchestrate body outs))).
  Proof.
    rewrite <- (all_rows_sizes body outs), <- concat_len. unfold trace_rows. cbn [concat length app].
    reflexivity.
  Qed.

  Lemma assemble_ok n NC alpha (body : prog F) outs :
    let R := trace_rows alpha body in
    assemble n NC (floor_plan (sizes (orchestrate body outs))) alpha
      (map seg_of ((root_row :: rows false body) :: sub_rows body))
    = if n <? length R then None
      else trace_build NC n (map ra R) (map rb R) (map rc R) (map rd R).
  Proof.
    intros R. set (rs := (root_row :: rows false body) :: sub_rows body).
    set (recs := sizes (orchestrate body outs)).
    assert (Hl : map (@length row) rs = map fst recs) by apply all_rows_sizes.
    unfold assemble. unfold floor_plan. rewrite floor_go_len, map_length.
    assert (Hlen : length recs = length rs) by (rewrite <- (map_length fst recs), <- Hl, map_length; reflexivity).
    rewrite Hlen, Nat.eqb_refl. cbn [negb].
    assert (Hrec : exists g c recs', recs = (g, c) :: recs').
    { destruct recs as [|[g c] recs'] eqn:E; [discriminate|]. eauto. }
    destruct Hrec as (g & c & recs' & Hrec).
    assert (Hpl : exists p0 plan', floor_go 0 0 recs = p0 :: plan' /\ gate_start p0 = 0).
    { rewrite Hrec. cbn [floor_go]. eexists _, _. split; reflexivity. }
    destruct Hpl as (p0 & plan' & Hpl & Hg0). rewrite Hpl, Hg0. cbn [Nat.eqb negb]. rewrite <- Hpl.
    rewrite total_ok by exact Hl.
    change (match rs with [] => 0 | _ :: _ => 0 + length (concat rs) end) with (length R).
    assert (HR : length R = length (concat rs)) by reflexivity.
    destruct (n <? length R); [reflexivity|].
    assert (Hs : forall get r, (forall l, get (seg_of l) = map r l) ->
              scatter get (map seg_of rs) (floor_go 0 0 recs) (repeat f0 (length R)) = Some (map r (concat rs))).
    { intros get r Hget. rewrite <- (app_nil_l (repeat f0 (length R))).
      rewrite (scatter_ok get r Hget recs rs 0 0 [] _ Hl eq_refl).
      - cbn [app]. f_equal. rewrite skipn_all2; [apply app_nil_r|]. rewrite repeat_length. lia.
      - rewrite repeat_length. lia. }
    rewrite (Hs tg_a ra), (Hs tg_b rb), (Hs tg_c rc), (Hs tg_d rd) by reflexivity.
    unfold R, trace_rows. cbn [length Nat.eqb]. reflexivity.
  Qed.

  (** ** routines predicted or not *)
  Fixpoint erase_known (p : prog F) : prog F :=
    match p with
    | PEnd => PEnd
    | PGate a b c d k => PGate a b c d (erase_known k)
    | PMul a b c k => PMul a b c (erase_known k)
    | PAlloc v k => PAlloc v (erase_known k)
    | PAdd lc k => PAdd lc (erase_known k)
    | PEnforce lc k => PEnforce lc (erase_known k)
    | PClone w k => PClone w (erase_known k)
    | PDrop i k => PDrop i (erase_known k)
    | PRoutine _ i b o k => PRoutine false i (erase_known b) o (erase_known k)
    end.
  Lemma next_erase p : next_alloc (erase_known p) = next_alloc p.
  Proof. induction p; cbn [erase_known next_alloc]; auto. Qed.
  Lemma rows_erase p : forall h, rows h (erase_known p) = rows h p.
  Proof.
    induction p; intros h; cbn [erase_known rows]; auto; try (f_equal; auto; fail).
    destruct h; auto. now rewrite next_erase, IHp.
  Qed.
  Lemma sub_rows_erase p : sub_rows (erase_known p) = sub_rows p.
  Proof. induction p; cbn [erase_known sub_rows]; auto. rewrite rows_erase. congruence. Qed.
  Lemma sizes_erase p : own_gates (erase_known p) = own_gates p /\ own_allocs (erase_known p) = own_allocs p /\
    own_cons (erase_known p) = own_cons p /\ sub_sizes (erase_known p) = sub_sizes p.
  Proof.
    induction p; cbn [erase_known own_gates own_allocs own_cons sub_sizes];
      try (destruct IHp as (-> & -> & -> & ->)); auto.
    destruct IHp1 as (E1 & E2 & E3 & E4), IHp2 as (-> & -> & -> & ->). rewrite E4.
    unfold scope_size. rewrite E1, E2, E3. auto.
  Qed.
End TraceP.
