(** Proofs about circuit programs: sizes, metrics, sxy and sx evaluators. *)
From Coq Require Import List Arith Lia Bool Ring Field.
From Verif Require Import FieldDef ArithModel ArithSpec ArithProofs FFTModel FFTProofs SparseModel SparseSpec SparseProofs CircModel CircSpec.
Import ListNotations.

(** ** sizes *)
Lemma list_sum_cons a l : list_sum (a :: l) = a + list_sum l.
Proof. reflexivity. Qed.
Definition used {F : Field} (half : bool) (p : prog F) : nat :=
  own_gates p + (own_allocs p + (if half then 0 else 1)) / 2.

Section Sizes.
  Variable F : Field.
  Implicit Types p k : prog F.

  Lemma used_scope p : scope_size p = (used false p, own_cons p).
  Proof. unfold scope_size, used. do 3 f_equal. lia. Qed.

  Lemma used_end h : used h (@PEnd F) = 0.
  Proof. destruct h; reflexivity. Qed.
  Lemma used_gate h a b c d k : used h (PGate a b c d k) = 1 + used h k.
  Proof. reflexivity. Qed.
  Lemma used_mul h a b c k : used h (PMul a b c k) = 1 + used h k.
  Proof. reflexivity. Qed.
  Lemma used_enforce h lc k : used h (PEnforce lc k) = used h k.
  Proof. reflexivity. Qed.
  Lemma used_routine h kn i b o k : used h (PRoutine kn i b o k) = used h k.
  Proof. reflexivity. Qed.
  Lemma used_alloc_half v k : used true (PAlloc v k) = used false k.
  Proof. unfold used. cbn [own_gates own_allocs]. do 2 f_equal. lia. Qed.
  Lemma used_alloc_full v k : used false (PAlloc v k) = S (used true k).
  Proof.
    unfold used. cbn [own_gates own_allocs].
    replace (S (own_allocs k) + 1) with (1 * 2 + (own_allocs k + 0)) by lia.
    rewrite Nat.div_add_l by lia. lia.
  Qed.

  Lemma sem_lens (val : nat -> kind -> nat -> F) : forall p sid nxt g av env,
    length (sm_own (sem val p sid nxt g av env)) = own_cons p /\
    map (@length F) (sm_subs (sem val p sid nxt g av env)) = map snd (sub_sizes p).
  Proof.
    induction p as [|a b c d k IH|a b c k IH|v k IH|lc k IH|lc k IH|w k IH|i k IH|kn ins body IHb outs k IHk];
      intros sid nxt g av env; cbn [sem own_cons sub_sizes]; auto.
    - destruct av; apply IH.
    - cbn [sm_own sm_subs length]. destruct (IH sid nxt g av env) as [E1 E2]. rewrite E1. auto.
    - cbn [sm_own sm_subs]. 
      destruct (IHb nxt (S nxt) 0 None (map (lookup (one_val val) env) ins)) as [B1 B2].
      set (rb := sem val body nxt (S nxt) 0 None (map (lookup (one_val val) env) ins)) in *.
      destruct (IHk sid (S nxt + length (sm_subs rb)) g av
                 (env ++ map (lookup (one_val val) (sm_env rb)) outs)) as [K1 K2].
      split; [exact K1|]. cbn [map]. rewrite !map_app, B1, B2, K2, used_scope. reflexivity.
  Qed.

  Lemma sem_subs_length (val : nat -> kind -> nat -> F) p sid nxt g av env :
    length (sm_subs (sem val p sid nxt g av env)) = length (sub_sizes p).
  Proof.
    destruct (sem_lens val p sid nxt g av env) as [_ H].
    apply (f_equal (@length nat)) in H. rewrite !map_length in H. exact H.
  Qed.
End Sizes.

(** ** floor plan *)
Lemma floor_go_nth : forall recs gs cs k,
  nth_error (floor_go gs cs recs) k =
  match nth_error recs k with
  | Some (g, c) => Some (mk_cseg (gs + gate_off recs k) (cs + cons_off recs k) g c)
  | None => None
  end.
Proof.
  induction recs as [|[g c] r IH]; intros gs cs k; [destruct k; reflexivity|].
  destruct k as [|k]; cbn [floor_go nth_error].
  - unfold gate_off, cons_off. simpl. rewrite !Nat.add_0_r. reflexivity.
  - rewrite IH. destruct (nth_error r k) as [[g' c']|]; [|reflexivity].
    unfold gate_off, cons_off. simpl. f_equal. f_equal; lia.
Qed.
Lemma floor_plan_nth recs k :
  nth_error (floor_plan recs) k =
  match nth_error recs k with
  | Some (g, c) => Some (mk_cseg (gate_off recs k) (cons_off recs k) g c)
  | None => None
  end.
Proof. unfold floor_plan. rewrite floor_go_nth. destruct (nth_error recs k) as [[? ?]|]; reflexivity. Qed.
Lemma floor_plan_length recs : length (floor_plan recs) = length recs.
Proof.
  unfold floor_plan. generalize 0 at 1. generalize 0. induction recs as [|[g c] r IH]; intros; simpl; auto.
Qed.

Lemma off_S (l : list nat) k : list_sum (firstn (S k) l) = list_sum (firstn k l) + nth k l 0.
Proof.
  revert k. induction l as [|x l IH]; intros k; [destruct k; reflexivity|].
  destruct k as [|k]; [simpl; lia|]. rewrite !firstn_cons. cbn [list_sum nth fold_right].
  change (fold_right Nat.add 0 (firstn (S k) l)) with (list_sum (firstn (S k) l)).
  rewrite IH. change (fold_right Nat.add 0 (firstn k l)) with (list_sum (firstn k l)). lia.
Qed.
Lemma off_mono (l : list nat) j k : j <= k -> list_sum (firstn j l) <= list_sum (firstn k l).
Proof. intros H. induction H; [lia|]. rewrite off_S. lia. Qed.
Lemma gate_off_S szs k sz : nth_error szs k = Some sz -> gate_off szs (S k) = gate_off szs k + fst sz.
Proof.
  intros H. unfold gate_off. rewrite off_S. f_equal.
  apply nth_error_nth. apply map_nth_error. exact H.
Qed.
Lemma cons_off_S szs k sz : nth_error szs k = Some sz -> cons_off szs (S k) = cons_off szs k + snd sz.
Proof.
  intros H. unfold cons_off. rewrite off_S. f_equal.
  apply nth_error_nth. apply map_nth_error. exact H.
Qed.
Lemma gate_off_mono szs j k : j <= k -> gate_off szs j <= gate_off szs k.
Proof. apply off_mono. Qed.
Lemma cons_off_mono szs j k : j <= k -> cons_off szs j <= cons_off szs k.
Proof. apply off_mono. Qed.
Lemma gate_off_all szs k : gate_off szs k <= list_sum (map fst szs).
Proof.
  unfold gate_off. rewrite <- (firstn_all (map fst szs)) at 2.
  destruct (Nat.le_ge_cases k (length (map fst szs))) as [H|H]; [apply off_mono; exact H|].
  rewrite (firstn_all2 (n:=k)) by exact H. rewrite firstn_all. lia.
Qed.
Lemma cons_off_all szs k : cons_off szs k <= list_sum (map snd szs).
Proof.
  unfold cons_off. rewrite <- (firstn_all (map snd szs)) at 2.
  destruct (Nat.le_ge_cases k (length (map snd szs))) as [H|H]; [apply off_mono; exact H|].
  rewrite (firstn_all2 (n:=k)) by exact H. rewrite firstn_all. lia.
Qed.

(** ** linear expressions *)
Section Lc.
  Variable F : Field.
  Lemma lin_spec_map {W W' : Type} (f : W -> W') (wv : W' -> F) (ops : list (lcall F W)) :
    lin_spec wv (map (lc_map f) ops) = lin_spec (fun w => wv (f w)) ops.
  Proof.
    unfold lin_spec. rewrite map_length. apply fsum_ext. intros i Hi.
    rewrite firstn_map. f_equal.
    - unfold gains. rewrite map_map. f_equal. apply map_ext. intros [| | | |]; reflexivity.
    - rewrite nth_error_map. destruct (nth_error ops i) as [op|]; [|reflexivity]. simpl.
      destruct op; simpl; try reflexivity. rewrite map_map. reflexivity.
  Qed.
  Lemma lin_spec_ext {W : Type} (wv wv' : W -> F) (ops : list (lcall F W)) :
    (forall w, wv w = wv' w) -> lin_spec wv ops = lin_spec wv' ops.
  Proof.
    intros H. unfold lin_spec. apply fsum_ext. intros i Hi. f_equal.
    destruct (nth_error ops i) as [op|]; [|reflexivity].
    destruct op; simpl; rewrite ?H; try reflexivity.
    f_equal. apply map_ext. intros t. rewrite H. reflexivity.
  Qed.

  Definition deref (one : F) (w : wire_eval F) : F := match w with WEValue v => v | WEOne => one end.
  Lemma deref_lookup (one : F) env r :
    deref one (lookup WEOne env r) = lookup one (map (deref one) env) r.
  Proof.
    destruct r as [|i]; [reflexivity|]. simpl.
    symmetry. exact (map_nth (deref one) env WEOne i).
  Qed.
  Lemma we_lc_ok (one : F) env lc :
    we_lc F one env lc = lin_spec (lookup one (map (deref one) env)) lc.
  Proof.
    unfold we_lc. rewrite wire_eval_sum_ok, lin_spec_map. apply lin_spec_ext.
    intros w. apply (deref_lookup one env w).
  Qed.
  Lemma map_deref_lookup (one : F) env rs :
    map (deref one) (map (lookup WEOne env) rs) = map (lookup one (map (deref one) env)) rs.
  Proof. rewrite map_map. apply map_ext. intros r. apply deref_lookup. Qed.
End Lc.

(** ** metrics *)
Section Metrics.
  Variable F : Field.
  Variables x0 x1 x2 x3 yc onec hc : F.
  Local Notation run := (cn_run F x0 x1 x2 x3 yc onec hc).
  Definition cnt (s : srec F) : nat * nat := (sr_gates F s, sr_cons F s).
  Definition cnts (k : counter F) : list (nat * nat) := map cnt (cn_segs F k).
  Definition addp (l : list (nat * nat)) (i : nat) (g c : nat) : list (nat * nat) :=
    match nth_error l i with Some (a, b) => upd l i (a + g, b + c) | None => l end.

  Lemma map_upd {A B} (f : A -> B) l i v : map f (upd l i v) = upd (map f l) i (f v).
  Proof. revert i. induction l as [|x l IH]; intros [|i]; simpl; auto. rewrite IH. reflexivity. Qed.
  Lemma upd_upd {A} (l : list A) i v w : upd (upd l i v) i w = upd l i w.
  Proof. revert i. induction l as [|x l IH]; intros [|i]; simpl; auto. rewrite IH. reflexivity. Qed.
  Lemma upd_same {A} (l : list A) i v : nth_error l i = Some v -> upd l i v = l.
  Proof.
    revert i. induction l as [|x l IH]; intros [|i] H; simpl in *; try congruence.
    rewrite IH by exact H. reflexivity.
  Qed.
  Lemma nth_error_upd_same {A} (l : list A) i v : i < length l -> nth_error (upd l i v) i = Some v.
  Proof. revert i. induction l as [|x l IH]; intros [|i] H; simpl in *; try lia; auto. apply IH. lia. Qed.
  Lemma upd_app_l {A} (l r : list A) i v : i < length l -> upd (l ++ r) i v = upd l i v ++ r.
  Proof. revert i. induction l as [|x l IH]; intros [|i] H; simpl in *; try lia; auto. rewrite IH by lia. reflexivity. Qed.

  Lemma addp_length l i g c : length (addp l i g c) = length l.
  Proof. unfold addp. destruct (nth_error l i) as [[? ?]|]; [apply upd_length|reflexivity]. Qed.
  Lemma addp_addp l i g c g' c' : addp (addp l i g c) i g' c' = addp l i (g + g') (c + c').
  Proof.
    unfold addp at 2 3. destruct (nth_error l i) as [[a b]|] eqn:E.
    - assert (i < length l) by (apply nth_error_Some; congruence).
      unfold addp. rewrite nth_error_upd_same by assumption. rewrite upd_upd.
      do 2 f_equal; lia.
    - unfold addp. rewrite E. reflexivity.
  Qed.
  Lemma addp_0 l i : addp l i 0 0 = l.
  Proof.
    unfold addp. destruct (nth_error l i) as [[a b]|] eqn:E; [|reflexivity].
    rewrite !Nat.add_0_r. apply upd_same. exact E.
  Qed.
  Lemma addp_app l r i g c : i < length l -> addp (l ++ r) i g c = addp l i g c ++ r.
  Proof.
    intros H. unfold addp. rewrite nth_error_app1 by exact H.
    destruct (nth_error l i) as [[a b]|]; [apply upd_app_l; exact H|reflexivity].
  Qed.
  Lemma addp_last l g c : addp (l ++ [(0, 0)]) (length l) g c = l ++ [(g, c)].
  Proof.
    unfold addp. rewrite nth_error_app2 by lia. rewrite Nat.sub_diag. simpl.
    induction l as [|y l IH]; simpl; [reflexivity|]. rewrite IH. reflexivity.
  Qed.

  Lemma cnts_bump g c segs i : map cnt (bump_seg F g c segs i) = addp (map cnt segs) i g c.
  Proof.
    unfold bump_seg, addp. rewrite nth_error_map.
    destruct (nth_error segs i) as [s|]; simpl; [rewrite map_upd|]; reflexivity.
  Qed.

  (** an uncounted remap changes neither counts nor segments *)
  Lemma remap_ok : forall m k, cn_counting F k = false ->
    let k' := fst (cn_remap F x0 x1 x2 x3 m k) in
    cn_segs F k' = cn_segs F k /\ cn_ngates F k' = cn_ngates F k /\ cn_ncons F k' = cn_ncons F k /\
    co_seg F (cn_scope F k') = co_seg F (cn_scope F k) /\ cn_counting F k' = false /\
    length (snd (cn_remap F x0 x1 x2 x3 m k)) = m.
  Proof.
    induction m as [|m IH]; intros k Hk; [simpl; repeat split; auto|]. cbn [cn_remap].
    destruct (cn_alloc F x0 x1 x2 x3 k) as [k1 w] eqn:E.
    assert (Hs : cn_segs F k1 = cn_segs F k /\ cn_ngates F k1 = cn_ngates F k /\
                 cn_ncons F k1 = cn_ncons F k /\ co_seg F (cn_scope F k1) = co_seg F (cn_scope F k) /\
                 cn_counting F k1 = false).
    { unfold cn_alloc, cn_gate in E. rewrite Hk in E.
      destruct (co_avail F (cn_scope F k)); inversion E; subst; simpl; repeat split; auto. }
    destruct Hs as (S1 & S2 & S3 & S4 & S5). pose proof (IH k1 S5) as J. cbv zeta in J. clear IH.
    destruct (cn_remap F x0 x1 x2 x3 m k1) as [k2 ws]. simpl in J |- *.
    destruct J as (I1 & I2 & I3 & I4 & I5 & I6). rewrite I1, I2, I3, I4, I6. repeat split; auto.
  Qed.

  Lemma uncounted_ok m k :
    let k' := fst (uncounted F x0 x1 x2 x3 m k) in
    cn_segs F k' = cn_segs F k /\ cn_ngates F k' = cn_ngates F k /\ cn_ncons F k' = cn_ncons F k /\
    co_seg F (cn_scope F k') = co_seg F (cn_scope F k) /\ cn_counting F k' = true /\
    length (snd (uncounted F x0 x1 x2 x3 m k)) = m.
  Proof.
    unfold uncounted. pose proof (remap_ok m (set_counting F k false) eq_refl) as H.
    destruct (cn_remap F x0 x1 x2 x3 m (set_counting F k false)) as [k' ws]. simpl in *.
    intuition.
  Qed.

  Definition is_some {A} (o : option A) : bool := match o with Some _ => true | None => false end.

  Lemma bump_length g c segs i : length (bump_seg F g c segs i) = length segs.
  Proof. unfold bump_seg. destruct (nth_error _ _); [rewrite upd_length|]; reflexivity. Qed.
  Local Opaque used list_sum addp bump_seg scope_size.
  Lemma cn_run_ok : forall p env k, cn_counting F k = true ->
    (co_seg F (cn_scope F k) < length (cn_segs F k))%nat ->
    let k' := snd (run p env k) in
    cnts k' = addp (cnts k) (co_seg F (cn_scope F k))
                (used (is_some (co_avail F (cn_scope F k))) p) (own_cons p) ++ sub_sizes p /\
    co_seg F (cn_scope F k') = co_seg F (cn_scope F k) /\ cn_counting F k' = true /\
    cn_ngates F k' = cn_ngates F k + used (is_some (co_avail F (cn_scope F k))) p
                     + list_sum (map fst (sub_sizes p)) /\
    cn_ncons F k' = cn_ncons F k + own_cons p + list_sum (map snd (sub_sizes p)).
  Proof.
    induction p as [|a b c d p IH|a b c p IH|v p IH|lc p IH|lc p IH|w p IH|i p IH|kn ins body IHb outs p IHk];
      intros env k Hc Hs; cbn [cn_run].
    - cbn [snd]. rewrite used_end. cbn [own_cons sub_sizes map]. change (list_sum []) with 0.
      rewrite app_nil_r, addp_0. repeat split; auto; lia.
    - unfold cn_gate. rewrite Hc. cbv zeta.
      match goal with |- context [cn_run _ _ _ _ _ _ _ _ p ?e ?kk] => specialize (IH e kk) end.
      cbn in IH.
      assert (Hl : (co_seg F (cn_scope F k) < length (bump_seg F 1 0 (cn_segs F k) (co_seg F (cn_scope F k))))%nat).
      { rewrite bump_length. exact Hs. }
      destruct IH as (I1 & I2 & I3 & I4 & I5); [reflexivity|exact Hl|].
      unfold cnts in *. cbn in I1, I4, I5 |- *. rewrite cnts_bump in I1. rewrite addp_addp in I1.
      rewrite used_gate.
      rewrite I1, I2, I3, I4, I5. repeat split; auto; lia.
    - unfold cn_gate. rewrite Hc. cbv zeta.
      match goal with |- context [cn_run _ _ _ _ _ _ _ _ p ?e ?kk] => specialize (IH e kk) end.
      cbn in IH.
      assert (Hl : (co_seg F (cn_scope F k) < length (bump_seg F 1 0 (cn_segs F k) (co_seg F (cn_scope F k))))%nat).
      { rewrite bump_length. exact Hs. }
      destruct IH as (I1 & I2 & I3 & I4 & I5); [reflexivity|exact Hl|].
      unfold cnts in *. cbn in I1, I4, I5 |- *. rewrite cnts_bump in I1. rewrite addp_addp in I1.
      rewrite used_mul.
      rewrite I1, I2, I3, I4, I5. repeat split; auto; lia.
    - unfold cn_alloc, cn_gate. destruct (co_avail F (cn_scope F k)) as [w|] eqn:Ea; cbv zeta.
      + match goal with |- context [cn_run _ _ _ _ _ _ _ _ p ?e ?kk] => specialize (IH e kk) end.
        cbn in IH. destruct IH as (I1 & I2 & I3 & I4 & I5); [exact Hc|exact Hs|].
        cbn [is_some]. rewrite used_alloc_half. cbn [own_cons sub_sizes]. auto.
      + rewrite Hc.
        match goal with |- context [cn_run _ _ _ _ _ _ _ _ p ?e ?kk] => specialize (IH e kk) end.
        cbn in IH.
        assert (Hl : (co_seg F (cn_scope F k) < length (bump_seg F 1 0 (cn_segs F k) (co_seg F (cn_scope F k))))%nat).
        { rewrite bump_length. exact Hs. }
        destruct IH as (I1 & I2 & I3 & I4 & I5); [reflexivity|exact Hl|].
        unfold cnts in *. cbn in I1, I4, I5 |- *. rewrite cnts_bump in I1. rewrite addp_addp in I1.
        rewrite used_alloc_full.
        rewrite I1, I2, I3, I4, I5. repeat split; auto; lia.
    - apply IH; auto.
    - match goal with |- context [cn_run _ _ _ _ _ _ _ _ p ?e ?kk] => specialize (IH e kk) end.
      cbn in IH.
      assert (Hl : (co_seg F (cn_scope F k) < length (bump_seg F 0 1 (cn_segs F k) (co_seg F (cn_scope F k))))%nat).
      { rewrite bump_length. exact Hs. }
      destruct IH as (I1 & I2 & I3 & I4 & I5); [exact Hc|exact Hl|].
      unfold cnts in *. cbn in I1, I4, I5 |- *. rewrite cnts_bump in I1. rewrite addp_addp in I1.
      rewrite used_enforce.
      rewrite I1, I2, I3, I4, I5. repeat split; auto; lia.
    - apply IH; auto.
    - apply IH; auto.
    - cbv zeta.
      set (k1 := mk_counter F _ _ _ _ _).
      destruct (uncounted F x0 x1 x2 x3 (length ins) k1) as [k2 ni] eqn:E2.
      pose proof (uncounted_ok (length ins) k1) as U. rewrite E2 in U. simpl in U.
      destruct U as (U1 & U2 & U3 & U4 & U5 & _).
      assert (Li : length (cn_segs F k ++ [mk_srec F 0 0 None]) - 1 = length (cn_segs F k))
        by (rewrite app_length; simpl; lia).
      destruct (run body ni (set_avail F k2 None)) as [cenv k4] eqn:E4.
      specialize (IHb ni (set_avail F k2 None)). rewrite E4 in IHb. cbn in IHb.
      rewrite U1, U2, U3, U4 in IHb. rewrite Li in IHb.
      destruct IHb as (B1 & B2 & B3 & B4 & B5); [exact U5|rewrite app_length; simpl; lia|].
      unfold cnts in B1. cbn in B1. try rewrite U1 in B1. cbn in B1, B4, B5.
      rewrite map_app in B1. cbn in B1.
      replace (length (cn_segs F k)) with (length (map cnt (cn_segs F k))) in B1 by apply map_length.
      rewrite addp_last in B1.
      set (segs' := match nth_error (cn_segs F k4) _ with Some _ => _ | None => _ end).
      assert (Es : map cnt segs' = map cnt (cn_segs F k4)).
      { unfold segs'. rewrite Li. destruct (nth_error (cn_segs F k4) (length (cn_segs F k))) as [s|] eqn:En; [|reflexivity].
        rewrite map_upd. apply upd_same. rewrite nth_error_map, En. reflexivity. }
      set (k5 := mk_counter F (cn_scope F k) _ _ segs' _).
      destruct (uncounted F x0 x1 x2 x3 (length outs) (set_avail F k5 None)) as [k6 po] eqn:E6.
      pose proof (uncounted_ok (length outs) (set_avail F k5 None)) as V. rewrite E6 in V. simpl in V.
      destruct V as (V1 & V2 & V3 & V4 & V5 & _).
      change (co_avail F (cn_scope F k5)) with (co_avail F (cn_scope F k)).
      match goal with |- context [cn_run _ _ _ _ _ _ _ _ p ?e ?kk] => specialize (IHk e kk) end.
      cbn in IHk. rewrite V1, V2, V3, V4 in IHk. unfold cnts in *. cbn in IHk.
      try rewrite V1 in IHk. rewrite Es, B1 in IHk.
      assert (Hl5 : (length (cn_segs F k) < length segs')%nat).
      { apply (f_equal (@length _)) in Es. apply (f_equal (@length _)) in B1.
        rewrite !app_length, !map_length in *. simpl in B1. lia. }
      destruct IHk as (K1 & K2 & K3 & K4 & K5); [exact V5|lia|].
      rewrite K1, K2, K4, K5. cbn in *. rewrite B4, B5.
      rewrite !addp_app by (rewrite ?app_length, map_length; lia).
      rewrite <- !app_assoc.
      cbn [app own_cons sub_sizes]. rewrite (used_scope F body). cbn [map fst snd].
      rewrite !list_sum_cons, !map_app, !list_sum_app, used_routine.
      repeat split; auto; lia.
  Qed.
End Metrics.

Section Metrics2.
  Variable F : Field.
  Variables x0 x1 x2 x3 yc onec hc : F.
  Lemma metrics_ok (body : prog F) (outs : list wref) :
    exists segs, metrics_eval F x0 x1 x2 x3 yc onec hc body outs
      = Some (list_sum (map fst (sizes (orchestrate body outs))),
              list_sum (map snd (sizes (orchestrate body outs))), length outs, segs) /\
      map (cnt F) segs = sizes (orchestrate body outs).
  Proof.
    unfold metrics_eval.
    destruct (cn_run F x0 x1 x2 x3 yc onec hc (orchestrate body outs) [] (counter_new F x0 x1 x2 x3 hc))
      as [e k] eqn:E.
    pose proof (cn_run_ok F x0 x1 x2 x3 yc onec hc (orchestrate body outs) []
      (counter_new F x0 x1 x2 x3 hc) eq_refl (Nat.lt_0_succ 0)) as H.
    rewrite E in H. cbv zeta in H. cbn [snd] in H. destruct H as (H1 & H2 & H3 & H4 & H5).
    unfold cnts in H1. cbn [counter_new cn_segs cn_scope fresh_scope co_seg co_avail is_some map] in H1, H4, H5.
    change (cnt F (mk_srec F 0 0 None)) with (0, 0) in H1.
    change (addp [(0, 0)] 0) with (addp ([] ++ [(0, 0)]) (@length (nat * nat) [])) in H1.
    rewrite addp_last in H1. cbn [app] in H1.
    assert (Hs : map (cnt F) (cn_segs F k) = sizes (orchestrate body outs)).
    { rewrite H1. unfold sizes. rewrite used_scope. reflexivity. }
    assert (Hg : list_sum (map (sr_gates F) (cn_segs F k)) = cn_ngates F k).
    { rewrite H4. transitivity (list_sum (map fst (map (cnt F) (cn_segs F k)))).
      - rewrite map_map. reflexivity.
      - rewrite H1. cbn [map fst]. rewrite list_sum_cons. reflexivity. }
    assert (Hc : list_sum (map (sr_cons F) (cn_segs F k)) = cn_ncons F k).
    { rewrite H5. transitivity (list_sum (map snd (map (cnt F) (cn_segs F k)))).
      - rewrite map_map. reflexivity.
      - rewrite H1. cbn [map snd]. rewrite list_sum_cons. reflexivity. }
    rewrite Hg, Hc, !Nat.eqb_refl. cbn [andb]. exists (cn_segs F k). split; [|exact Hs].
    rewrite <- Hs, !map_map, <- Hg, <- Hc. reflexivity.
  Qed.
End Metrics2.
