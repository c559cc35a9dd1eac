(** Iterator, commitment and view proofs for sparse polynomials. *)
From Coq Require Import List Arith Lia Bool Field.
From Verif Require Import FieldDef ModDef ArithModel FFTProofs SparseModel SparseSpec SparseProofs.
Import ListNotations.

Lemma nth_error_Some_lt {A} (l : list A) i x : nth_error l i = Some x -> i < length l.
Proof. intros H. apply nth_error_Some. congruence. Qed.

Section P.
  Variable F : Field.
  Add Field FFsp2 : (f_theory F).
  Open Scope f_scope.
  Local Notation block := (nat * list F)%type.
  Local Notation poly := (list (nat * list F)).

  (** ** iterator *)
  Lemma wf_order : forall (bs : poly) lo hi i j s d s' d', wf lo hi bs -> (i < j)%nat ->
    nth_error bs i = Some (s, d) -> nth_error bs j = Some (s', d') -> (s + length d <= s')%nat.
  Proof.
    induction bs as [|[s0 d0] bs IH]; intros lo hi i j s d s' d' W Hij Hi Hj; [destruct i; discriminate|].
    simpl in W. destruct W as (A & B & C & D). destruct j; [lia|]. simpl in Hj. destruct i.
    - simpl in Hi. injection Hi as -> ->.
      apply nth_error_In in Hj. destruct (wf_in _ _ _ _ _ _ D Hj) as (X & _). auto.
    - simpl in Hi. eapply (IH _ _ i j); eauto. lia.
  Qed.
  Lemma coeff_hit : forall (bs : poly) lo hi i s d k, wf lo hi bs -> nth_error bs i = Some (s, d) ->
    (s <= k < s + length d)%nat -> coeff_at bs k = nth (k - s) d 0.
  Proof.
    induction bs as [|[s0 d0] bs IH]; intros lo hi i s d k W Hi Hk; [destruct i; discriminate|].
    simpl in W. destruct W as (A & B & C & D). destruct i; simpl in Hi.
    - injection Hi as -> ->. simpl. destruct (Nat.leb_spec s k); try lia.
      destruct (Nat.ltb_spec k (s + length d)); try lia. reflexivity.
    - simpl. destruct (wf_in _ _ _ _ _ _ D (nth_error_In _ _ Hi)) as (X & _).
      destruct (Nat.ltb_spec k (s0 + length d0)); try lia. rewrite andb_false_r. eapply IH; eauto.
  Qed.
  Lemma coeff_miss : forall (bs : poly) k,
    (forall i s d, nth_error bs i = Some (s, d) -> ~ (s <= k < s + length d)%nat) -> coeff_at bs k = 0.
  Proof.
    induction bs as [|[s0 d0] bs IH]; intros k H; [reflexivity|]. simpl.
    pose proof (H 0%nat s0 d0 eq_refl).
    destruct (Nat.leb_spec s0 k); destruct (Nat.ltb_spec k (s0 + length d0)); cbn [andb]; try lia;
      apply IH; intros i s d Hi; apply (H (S i) s d Hi).
  Qed.

  Definition it_ok (bs : poly) (it : citer) : Prop :=
    (forall j s d, (j < ci_fb it)%nat -> nth_error bs j = Some (s, d) -> (s + length d <= ci_front it)%nat) /\
    (forall j s d, (ci_bb it <= j)%nat -> nth_error bs j = Some (s, d) -> (ci_back it <= s)%nat).

  Lemma skip_front_ok : forall fuel (bs : poly) front fb, (length bs <= fuel + fb)%nat ->
    (forall j s d, (j < fb)%nat -> nth_error bs j = Some (s, d) -> (s + length d <= front)%nat) ->
    let fb' := skip_front fuel bs front fb in
    (forall j s d, (j < fb')%nat -> nth_error bs j = Some (s, d) -> (s + length d <= front)%nat) /\
    (forall s d, nth_error bs fb' = Some (s, d) -> (front < s + length d)%nat).
  Proof.
    induction fuel; intros bs front fb Hf H; simpl.
    - split; auto. intros s d E. apply nth_error_Some_lt in E. lia.
    - destruct (nth_error bs fb) as [[s d]|] eqn:E.
      + destruct (Nat.ltb_spec front (s + length d)).
        * split; auto. intros s' d' E'. rewrite E in E'. injection E' as <- <-. auto.
        * apply IHfuel; [lia|]. intros j s' d' Hj E'. destruct (Nat.eq_dec j fb).
          -- subst. rewrite E in E'. injection E' as <- <-. auto.
          -- apply (H j); auto. lia.
      + split; auto. intros s' d' E'. congruence.
  Qed.
  Lemma skip_back_ok : forall (bs : poly) back bb, 
    (forall j s d, (bb <= j)%nat -> nth_error bs j = Some (s, d) -> (back < s)%nat) -> (bb <= length bs)%nat ->
    let bb' := skip_back bs back bb in
    (forall j s d, (bb' <= j)%nat -> nth_error bs j = Some (s, d) -> (back < s)%nat) /\ (bb' <= length bs)%nat /\
    (forall i s d, bb' = S i -> nth_error bs i = Some (s, d) -> (s <= back)%nat).
  Proof.
    induction bb; intros H Hl; simpl.
    - repeat split; auto; intros; try discriminate; lia.
    - destruct (nth_error bs bb) as [[s d]|] eqn:E.
      + destruct (Nat.leb_spec s back).
        * repeat split; auto. intros i s' d' Hi E'. injection Hi as <-. rewrite E in E'. injection E' as <- <-. auto.
        * apply IHbb; [|lia]. intros j s' d' Hj E'. destruct (Nat.eq_dec j bb).
          -- subst. rewrite E in E'. injection E' as <- <-. auto.
          -- apply (H j s' d'); auto. lia.
      + apply nth_error_None in E. lia.
  Qed.

  Definition seg (bs : poly) (it : citer) : list F :=
    map (coeff_at bs) (seq (ci_front it) (ci_back it - ci_front it)).

  Lemma next_ok : forall NC (bs : poly) it, wf 0 NC bs -> it_ok bs it -> (ci_bb it <= length bs)%nat ->
    let '(it', r) := ci_next bs it in
    it_ok bs it' /\ (ci_bb it' <= length bs)%nat /\ deque_step true (seg bs it) = (seg bs it', r).
  Proof.
    intros NC bs it W [H1 H2] Hb. unfold ci_next.
    destruct (Nat.leb_spec (ci_back it) (ci_front it)) as [Hle|Hlt].
    - unfold seg. replace (ci_back it - ci_front it)%nat with 0%nat by lia. simpl. unfold it_ok. auto.
    - destruct (skip_front_ok (length bs) bs (ci_front it) (ci_fb it) ltac:(lia) H1) as [H3 H4].
      set (fb := skip_front (length bs) bs (ci_front it) (ci_fb it)) in *. split; [|split; auto].
      + split; cbn [ci_front ci_back ci_fb ci_bb].
        * intros j s d Hj E. apply H3 in E; auto. lia.
        * auto.
      + unfold seg. cbn [ci_front ci_back].
        replace (ci_back it - ci_front it)%nat with (S (ci_back it - (ci_front it + 1))) by lia.
        cbn [seq map deque_step]. rewrite Nat.add_1_r. f_equal. f_equal.
        destruct (nth_error bs fb) as [[s d]|] eqn:E.
        * pose proof (H4 s d eq_refl). destruct (Nat.leb_spec s (ci_front it)).
          -- eapply coeff_hit; eauto.
          -- apply coeff_miss. intros i s' d' Ei [Ha Hb'].
             destruct (Nat.lt_trichotomy i fb) as [Hl|[->|Hg]].
             ++ apply H3 in Ei; auto. lia.
             ++ rewrite E in Ei. injection Ei as <- <-. lia.
             ++ pose proof (wf_order _ _ _ _ _ _ _ _ _ W Hg E Ei). lia.
        * apply coeff_miss. intros i s' d' Ei [Ha Hb']. apply nth_error_None in E.
          pose proof (nth_error_Some_lt _ _ _ Ei). assert (i < fb)%nat as Hl by lia. apply H3 in Ei; auto. lia.
  Qed.
  Lemma next_back_ok : forall NC (bs : poly) it, wf 0 NC bs -> it_ok bs it -> (ci_bb it <= length bs)%nat ->
    let '(it', r) := ci_next_back bs it in
    it_ok bs it' /\ (ci_bb it' <= length bs)%nat /\ deque_step false (seg bs it) = (seg bs it', r).
  Proof.
    intros NC bs it W [H1 H2] Hb. unfold ci_next_back.
    destruct (Nat.leb_spec (ci_back it) (ci_front it)) as [Hle|Hlt].
    - unfold seg. replace (ci_back it - ci_front it)%nat with 0%nat by lia. simpl. unfold it_ok. auto.
    - assert (H2' : forall j s d, (ci_bb it <= j)%nat -> nth_error bs j = Some (s, d) -> (ci_back it - 1 < s)%nat).
      { intros j s d Hj E. apply H2 in E; auto. lia. }
      destruct (skip_back_ok bs (ci_back it - 1) (ci_bb it) H2' Hb) as (H3 & H4 & H5).
      set (bb := skip_back bs (ci_back it - 1) (ci_bb it)) in *. split; [|split; auto].
      + split; cbn [ci_front ci_back ci_fb ci_bb].
        * auto.
        * intros j s d Hj E. apply H3 in E; auto. lia.
      + unfold seg. cbn [ci_front ci_back].
        replace (ci_back it - ci_front it)%nat with (S (ci_back it - 1 - ci_front it)) by lia.
        set (m := (ci_back it - 1 - ci_front it)%nat). rewrite seq_S, map_app. cbn [map].
        replace (ci_front it + m)%nat with (ci_back it - 1)%nat by lia.
        set (l := map (coeff_at bs) (seq (ci_front it) m)). set (v := coeff_at bs (ci_back it - 1)).
        assert (E : deque_step false (l ++ [v]) = (l, Some v)).
        { unfold deque_step. destruct (l ++ [v]) as [|x t] eqn:E; [destruct l; discriminate|].
          rewrite <- E, removelast_last, last_last. reflexivity. }
        rewrite E. f_equal. f_equal. unfold v.
        destruct bb as [|bb'] eqn:Ebb.
        * apply coeff_miss. intros i s d Ei [Ha Hb']. apply H3 in Ei; lia.
        * destruct (nth_error bs bb') as [[s d]|] eqn:Eb.
          -- pose proof (H5 bb' s d eq_refl Eb). destruct (Nat.ltb_spec (ci_back it - 1) (s + length d)).
             ++ eapply coeff_hit; eauto.
             ++ apply coeff_miss. intros i s' d' Ei [Ha Hb'].
                destruct (Nat.lt_trichotomy i bb') as [Hl|[->|Hg]].
                ** pose proof (wf_order _ _ _ _ _ _ _ _ _ W Hl Ei Eb). lia.
                ** rewrite Eb in Ei. injection Ei as <- <-. lia.
                ** apply H3 in Ei; lia.
          -- apply nth_error_None in Eb. lia.
  Qed.

  (** run a schedule of next (true) and next_back (false) calls *)
  Fixpoint run_iter (bs : poly) (ops : list bool) (it : citer) : list (option F) :=
    match ops with
    | [] => []
    | o :: ops' => let '(it', r) := (if o then ci_next bs it else ci_next_back bs it) in r :: run_iter bs ops' it'
    end.
  Lemma run_iter_ok : forall NC (bs : poly) ops it, wf 0 NC bs -> it_ok bs it -> (ci_bb it <= length bs)%nat ->
    run_iter bs ops it = deque_run ops (seg bs it).
  Proof.
    intros NC bs. induction ops as [|o ops IH]; intros it W Hi Hb; [reflexivity|].
    cbn [run_iter deque_run]. destruct o.
    - pose proof (next_ok NC bs it W Hi Hb) as H. destruct (ci_next bs it) as [it' r]. destruct H as (A & B & ->).
      f_equal. auto.
    - pose proof (next_back_ok NC bs it W Hi Hb) as H. destruct (ci_next_back bs it) as [it' r]. destruct H as (A & B & ->).
      f_equal. auto.
  Qed.
  Lemma iter_all_ok : forall NC (bs : poly) ops, wf 0 NC bs ->
    run_iter bs ops (iter_coeffs NC bs) = deque_run ops (dense NC bs).
  Proof.
    intros. rewrite (run_iter_ok NC); auto.
    - unfold seg, dense. simpl. now rewrite Nat.sub_0_r.
    - split; simpl; [intros; lia|]. intros j s d Hj E. apply nth_error_Some_lt in E. lia.
  Qed.

  (** ** commit *)
  Lemma lincomb_app : forall {M : FMod F} (c1 c2 : list F) (g1 g2 : list M), length c1 = length g1 ->
    lincomb (c1 ++ c2) (g1 ++ g2) = madd (lincomb c1 g1) (lincomb c2 g2).
  Proof.
    induction c1 as [|c c1 IH]; destruct g1 as [|g g1]; intros g2 H; try discriminate; simpl.
    - now rewrite madd_0.
    - rewrite IH by auto. apply madd_assoc.
  Qed.
  Lemma lincomb_msum : forall {M : FMod F} (c : list F) (g : list M), length c = length g ->
    lincomb c g = msum (length c) (fun i => mscale (nth i c 0) (nth i g m0)).
  Proof.
    intros M c. induction c as [|x c IH] using rev_ind; intros g H.
    - reflexivity.
    - rewrite app_length in *. simpl in H. rewrite Nat.add_1_r in *.
      destruct g as [|g0 g'] using rev_ind; [discriminate|]. clear IHg'. rewrite app_length in H. simpl in H.
      rewrite Nat.add_1_r in H. injection H as H. rewrite lincomb_app by auto. cbn [msum]. f_equal.
      + rewrite IH by auto. apply msum_ext. intros i Hi. rewrite !app_nth1 by lia. reflexivity.
      + simpl. rewrite madd_0_r. rewrite !app_nth2 by lia. rewrite H, !Nat.sub_diag. reflexivity.
  Qed.
  Lemma commit_ok : forall NC (M : FMod F) (gens : list M) (p : poly), wf 0 NC p -> (NC <= length gens)%nat ->
    p_commit NC gens p = Some (msum NC (fun k => mscale (coeff_at p k) (nth k gens m0))).
  Proof.
    intros NC M gens p W Hg. unfold p_commit. destruct (Nat.leb_spec NC (length gens)); try lia. f_equal.
    clear H. revert W. generalize 0%nat as lo. induction p as [|[s d] p IH]; intros lo W.
    - simpl. symmetry. apply msum_zero. intros. apply mscale_0.
    - pose proof W as W0. simpl in W. destruct W as (A & B & C & D). cbn [flat_map fst snd].
      assert (Hl : length d = length (firstn (length d) (skipn s gens))).
      { rewrite firstn_length, skipn_length. lia. }
      rewrite lincomb_app by auto. rewrite (IH _ D), lincomb_msum by auto.
      rewrite (msum_ext F M NC (fun k => mscale (coeff_at ((s, d) :: p) k) (nth k gens m0))
         (fun k => madd (mscale (bcoef F (s, d) k) (nth k gens m0)) (mscale (coeff_at p k) (nth k gens m0)))).
      2:{ intros k Hk. rewrite (coeff_cons _ _ _ _ _ _ W0). apply mscale_addl. }
      rewrite msum_add. f_equal.
      replace NC with (s + (length d + (NC - s - length d)))%nat by lia.
      rewrite !msum_split.
      rewrite (msum_zero F M s), (msum_zero F M (NC - s - length d)).
      + rewrite madd_0, madd_0_r. apply msum_ext. intros i Hi.
        rewrite nth_firstn_lt by lia. rewrite nth_skipn_add. unfold bcoef. cbn [fst snd].
        destruct (Nat.leb_spec s (s + i)); try lia. destruct (Nat.ltb_spec (s + i) (s + length d)); try lia.
        cbn [andb]. do 2 f_equal. lia.
      + intros i Hi. unfold bcoef. cbn [fst snd].
        destruct (Nat.ltb_spec (s + (length d + i)) (s + length d)); try lia. rewrite andb_false_r. apply mscale_0.
      + intros i Hi. unfold bcoef. cbn [fst snd].
        destruct (Nat.leb_spec s i); try lia. apply mscale_0.
  Qed.

  (** ** views *)
  Definition trace_coeff (n : nat) (a b c d : list F) (k : nat) : F :=
    if k <? n then nth k c 0
    else if k <? 2 * n then nth (2 * n - 1 - k) b 0
    else if k <? 3 * n then nth (k - 2 * n) a 0
    else if k <? 4 * n then nth (4 * n - 1 - k) d 0 else 0.

  Lemma bcoef_rev : forall e (l : list F) k, (length l <= e)%nat ->
    bcoef F ((e - length l)%nat, rev l) k = if k <? e then nth (e - 1 - k) l 0 else 0.
  Proof.
    intros e l k H. unfold bcoef. cbn [fst snd]. rewrite rev_length.
    destruct (Nat.leb_spec (e - length l) k); destruct (Nat.ltb_spec k (e - length l + length l));
      destruct (Nat.ltb_spec k e); cbn [andb]; try lia; auto.
    - rewrite rev_nth by lia. f_equal. lia.
    - now rewrite nth_overflow by lia.
  Qed.
  Lemma trace_blocks_ok : forall n (a b c d : list F), (length a <= n)%nat -> (length b <= n)%nat ->
    (length c <= n)%nat -> (length d <= n)%nat ->
    wf 0 (4 * n) (trace_blocks a b c d n) /\
    forall k, coeff_at (trace_blocks a b c d n) k = trace_coeff n a b c d k.
  Proof.
    intros n a b c d Ha Hb Hc Hd. unfold trace_blocks.
    assert (E1 : forall lo hi s (x : list F), (lo <= s)%nat -> (s + length x <= hi)%nat ->
       wf lo hi (if (length x =? 0)%nat then [] else [(s, x)]) /\
       forall k, coeff_at (if (length x =? 0)%nat then [] else [(s, x)]) k = bcoef F (s, x) k).
    { intros lo hi s x H1 H2. destruct (Nat.eqb_spec (length x) 0) as [E|E].
      - apply length_zero_iff_nil in E. subst. split; [exact I|]. intros k. unfold bcoef. simpl.
        destruct (Nat.leb_spec s k); destruct (Nat.ltb_spec k (s + 0)); auto; lia.
      - split; [simpl; repeat split; auto; intros ->; simpl in E; lia|]. intros. apply bcoef_single. }
    destruct (E1 0%nat n 0%nat c) as [W1 C1]; try lia.
    replace (length b =? 0)%nat with (length (rev b) =? 0)%nat by now rewrite rev_length.
    replace (length d =? 0)%nat with (length (rev d) =? 0)%nat by now rewrite rev_length.
    destruct (E1 n (2*n)%nat (2 * n - length b)%nat (rev b)) as [W2 C2]; [lia|rewrite rev_length; lia|].
    destruct (E1 (2*n)%nat (3*n)%nat (2 * n)%nat a) as [W3 C3]; try lia.
    destruct (E1 (3*n)%nat (4*n)%nat (4 * n - length d)%nat (rev d)) as [W4 C4]; [lia|rewrite rev_length; lia|].
    pose proof (wf_app _ _ _ _ _ _ W3 W4 ltac:(lia) ltac:(lia)) as W34.
    pose proof (wf_app _ _ _ _ _ _ W2 W34 ltac:(lia) ltac:(lia)) as W234.
    split; [apply (wf_app _ _ _ _ _ _ W1 W234); lia|].
    intros k. rewrite (coeff_app _ _ _ _ _ _ _ W1 W234), (coeff_app _ _ _ _ _ _ _ W2 W34), (coeff_app _ _ _ _ _ _ _ W3 W4).
    rewrite C1, C2, C3, C4, !bcoef_rev by lia. unfold trace_coeff, bcoef. cbn [fst snd].
    assert (Ef : forall s (x : list F), (if (s <=? k) && (k <? s + length x) then nth (k - s) x 0 else 0)
                                   = if s <=? k then nth (k - s) x 0 else 0).
    { intros s x. destruct (Nat.leb_spec s k); cbn [andb]; auto. destruct (Nat.ltb_spec k (s + length x)); auto.
      now rewrite nth_overflow by lia. }
    rewrite !Ef.
    destruct (Nat.ltb_spec k n).
    { destruct (Nat.leb_spec 0 k); try lia. f_equal. lia. }
    destruct (Nat.ltb_spec k (2 * n)); auto.
    destruct (Nat.ltb_spec k (3 * n)); auto.
    destruct (Nat.leb_spec (2 * n) k); try lia. auto.
  Qed.

  Lemma view_build_ok : forall n mtb (a b c d : list F) co,
    (length a <= n)%nat -> (length b <= n)%nat -> (length c <= n)%nat -> (length d <= n)%nat ->
    wf 0 (4 * n) (mtb a b c d n) -> (forall k, coeff_at (mtb a b c d n) k = co k) ->
    exists p, view_build (4 * n) mtb n a b c d = Some p /\ wf 0 (4 * n) p /\ forall k, coeff_at p k = co k.
  Proof.
    intros n mtb a b c d co Ha Hb Hc Hd W C. unfold view_build.
    destruct (Nat.leb_spec (length a) n); try lia. destruct (Nat.leb_spec (length b) n); try lia.
    destruct (Nat.leb_spec (length c) n); try lia. destruct (Nat.leb_spec (length d) n); try lia. cbn [andb].
    destruct (fold_runs_ok F (fun x => x) (mtb a b c d n) [] 0 (4 * n) W ltac:(lia) (fun _ => eq_refl)) as (res & E & Wr & Cr).
    simpl app in E. exists res. split; [|split; auto].
    - apply from_blocks_some. rewrite E. auto.
    - intros k. rewrite Cr, <- C. f_equal. rewrite <- (map_id (mtb a b c d n)) at 2. apply map_ext. intros [? ?]. reflexivity.
  Qed.
  Lemma trace_build_ok : forall n (a b c d : list F),
    (length a <= n)%nat -> (length b <= n)%nat -> (length c <= n)%nat -> (length d <= n)%nat ->
    exists p, trace_build (4 * n) n a b c d = Some p /\ wf 0 (4 * n) p /\
              forall k, coeff_at p k = trace_coeff n a b c d k.
  Proof.
    intros. destruct (trace_blocks_ok n a b c d) as [W C]; auto. apply view_build_ok; auto.
  Qed.
  Lemma wiring_build_ok : forall n (a b c d : list F),
    (length a <= n)%nat -> (length b <= n)%nat -> (length c <= n)%nat -> (length d <= n)%nat ->
    exists p, wiring_build (4 * n) n a b c d = Some p /\ wf 0 (4 * n) p /\
              forall k, coeff_at p k = trace_coeff n b a d c k.
  Proof.
    intros. destruct (trace_blocks_ok n b a d c) as [W C]; auto. apply view_build_ok; auto.
  Qed.
  Lemma view_build_panics : forall NC n mtb (a b c d : list F),
    (n < length a \/ n < length b \/ n < length c \/ n < length d)%nat -> view_build NC mtb n a b c d = None.
  Proof.
    intros. unfold view_build. destruct (Nat.leb_spec (length a) n); auto.
    destruct (Nat.leb_spec (length b) n); auto. destruct (Nat.leb_spec (length c) n); auto.
    destruct (Nat.leb_spec (length d) n); auto. lia.
  Qed.

  (** sum over all degrees as a sum over gates *)
  Lemma sum_by_gate : forall n (f : nat -> F),
    fsum (4 * n) f = fsum n (fun i => f i + f (2 * n - 1 - i)%nat + f (2 * n + i)%nat + f (4 * n - 1 - i)%nat).
  Proof.
    intros n f. rewrite !fsum_add.
    assert (E1 : fsum n (fun i => f (2 * n - 1 - i)%nat) = fsum n (fun i => f (n + i)%nat)).
    { rewrite <- (fsum_rev F n (fun i => f (n + i)%nat)). apply fsum_ext. intros; f_equal; lia. }
    assert (E2 : fsum n (fun i => f (4 * n - 1 - i)%nat) = fsum n (fun i => f (n + (n + (n + i)))%nat)).
    { rewrite <- (fsum_rev F n (fun i => f (n + (n + (n + i)))%nat)). apply fsum_ext. intros; f_equal; lia. }
    assert (E3 : fsum n (fun i => f (2 * n + i)%nat) = fsum n (fun i => f (n + (n + i))%nat)).
    { apply fsum_ext. intros; f_equal; lia. }
    rewrite E1, E2, E3. replace (fsum (4 * n)) with (fsum (F:=F) (n + (n + (n + n)))%nat) by (f_equal; lia).
    rewrite !fsum_split. ring.
  Qed.
  Lemma trace_coeff_c : forall n (a b c d : list F) i, (i < n)%nat -> trace_coeff n a b c d i = nth i c 0.
  Proof. intros. unfold trace_coeff. destruct (Nat.ltb_spec i n); try lia. auto. Qed.
  Lemma trace_coeff_b : forall n (a b c d : list F) i, (i < n)%nat -> trace_coeff n a b c d (2 * n - 1 - i) = nth i b 0.
  Proof.
    intros. unfold trace_coeff. destruct (Nat.ltb_spec (2 * n - 1 - i) n); try lia.
    destruct (Nat.ltb_spec (2 * n - 1 - i) (2 * n)); try lia. f_equal. lia. Qed.
  Lemma trace_coeff_a : forall n (a b c d : list F) i, (i < n)%nat -> trace_coeff n a b c d (2 * n + i) = nth i a 0.
  Proof.
    intros. unfold trace_coeff. destruct (Nat.ltb_spec (2 * n + i) n); try lia.
    destruct (Nat.ltb_spec (2 * n + i) (2 * n)); try lia. destruct (Nat.ltb_spec (2 * n + i) (3 * n)); try lia.
    f_equal. lia. Qed.
  Lemma trace_coeff_d : forall n (a b c d : list F) i, (i < n)%nat -> trace_coeff n a b c d (4 * n - 1 - i) = nth i d 0.
  Proof.
    intros. unfold trace_coeff. destruct (Nat.ltb_spec (4 * n - 1 - i) n); try lia.
    destruct (Nat.ltb_spec (4 * n - 1 - i) (2 * n)); try lia. destruct (Nat.ltb_spec (4 * n - 1 - i) (3 * n)); try lia.
    destruct (Nat.ltb_spec (4 * n - 1 - i) (4 * n)); try lia. f_equal. lia. Qed.

  Lemma dual_sum : forall n (a b c d a' b' c' d' : list F),
    fsum (4 * n) (fun k => trace_coeff n a b c d k * trace_coeff n b' a' d' c' (4 * n - 1 - k)) =
    fsum n (fun i => nth i a 0 * nth i a' 0 + nth i b 0 * nth i b' 0 + nth i c 0 * nth i c' 0 + nth i d 0 * nth i d' 0).
  Proof.
    intros. rewrite sum_by_gate. apply fsum_ext. intros i Hi. cbv beta.
    replace (4 * n - 1 - (2 * n - 1 - i))%nat with (2 * n + i)%nat by lia.
    replace (4 * n - 1 - (2 * n + i))%nat with (2 * n - 1 - i)%nat by lia.
    replace (4 * n - 1 - (4 * n - 1 - i))%nat with i by lia.
    rewrite !trace_coeff_a, !trace_coeff_b, !trace_coeff_c, !trace_coeff_d by auto. rewrite ?trace_coeff_c by auto. ring.
  Qed.
End P.
