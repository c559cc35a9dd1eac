From Coq Require Import List Arith NArith Bool Lia Ring Field.
From Verif Require Import FieldDef ModDef ArithModel GadgetModel GadgetSpec GadgetProofs PointSpec PointProofs EndoSpec EndoProofs FoldModel FoldProofs EscModel EscSpec.
Import ListNotations.
Local Open Scope nat_scope.

Lemma skipn_firstn_nth {T : Type} (l : list T) a b : forall is, is = seq a b -> (forall i, In i is -> i < length l) ->
  pick l is = Some (firstn b (skipn a l)).
Proof.
  revert a. induction b as [|b IH]; intros a is -> H; [reflexivity|]. cbn [seq pick].
  destruct (nth_error l a) as [x|] eqn:E.
  - rewrite (IH (S a) _ eq_refl).
    + f_equal. assert (S' : skipn a l = x :: skipn (S a) l).
      { clear - E. revert l E. induction a; intros [|y l] E; cbn in *; try discriminate; [congruence|]. apply IHa. exact E. }
      rewrite S'. reflexivity.
    + intros i Hi. apply H. right. exact Hi.
  - apply nth_error_None in E. specialize (H a (or_introl eq_refl)). lia.
Qed.

(** ** steps and ranges *)
Lemma num_steps_ok i k : num_steps (S i) = Some k -> 1 <= k /\ 4 * (k - 1) <= i /\ i <= 4 * k /\ (0 < i -> 4 * (k - 1) < i).
Proof.
  unfold num_steps, inputs_len, ENDOSCALINGS_PER_STEP. intros H.
  pose proof (Nat.div_mod (i + 3) 4 ltac:(lia)) as D. pose proof (Nat.mod_upper_bound (i + 3) 4 ltac:(lia)) as M.
  change (4 - 1) with 3 in H. cbv zeta in H. set (d := (i + 3) / 4) in *. set (m := (i + 3) mod 4) in *. clearbody d m.
  destruct (Nat.ltb_spec 1 d); injection H as <-; lia.
Qed.
Lemma range_ok i step : input_range (S i) step = Some (seq (4 * step) (Nat.min 4 (i - 4 * step))).
Proof.
  unfold input_range, inputs_len, ENDOSCALINGS_PER_STEP. cbv beta iota zeta. do 2 f_equal; lia.
Qed.

Section W.
  Context {Fs : Field} {E : FMod Fs}.
  Add Field FFes : (f_theory Fs).
  Open Scope f_scope.
  Lemma combo_snoc (s : Fs) (p0 : E) ps q : combo s ((p0 :: ps) ++ [q]) = madd (mscale s (combo s (p0 :: ps))) q.
  Proof.
    unfold combo. set (l := p0 :: ps). rewrite app_length. cbn [length]. rewrite Nat.add_1_r. cbn [msum].
    rewrite (app_nth2 l [q]) by lia. replace (length l - length l)%nat with O by lia. cbn [nth]. f_equal.
    - rewrite <- msum_scale. apply msum_ext. intros i Hi. rewrite app_nth1 by exact Hi. rewrite mscale_mul. f_equal.
      replace (S (length l) - 1 - i)%nat with (S (length l - 1 - i)) by lia. cbn [fpow]. ring.
    - replace (S (length l) - 1 - length l)%nat with O by lia. cbn [fpow]. apply mscale_1.
  Qed.
  Lemma combo_chunk (s : Fs) (p0 : E) : forall qs ps, esc_chunk s (combo s (p0 :: ps)) qs = combo s (p0 :: ps ++ qs).
  Proof.
    induction qs as [|q qs IH]; intros ps; cbn [esc_chunk fold_left]; [rewrite app_nil_r; reflexivity|].
    change (esc_chunk s (madd (mscale s (combo s (p0 :: ps))) q) qs = combo s (p0 :: ps ++ q :: qs)).
    rewrite <- combo_snoc. change ((p0 :: ps) ++ [q]) with (p0 :: (ps ++ [q])). rewrite IH, <- app_assoc. reflexivity.
  Qed.
  Lemma combo_1 (s : Fs) (p : E) : combo s [p] = p.
  Proof. unfold combo. cbn [length msum nth]. rewrite madd_0. cbn. apply mscale_1. Qed.
  Lemma partial_next (s : Fs) (p0 : E) ins a b :
    esc_chunk s (partial_combo s p0 ins a) (firstn b (skipn a ins)) = partial_combo s p0 ins (a + b).
  Proof.
    unfold partial_combo. rewrite combo_chunk. do 2 f_equal. clear. revert ins. induction a as [|a IH]; intros ins; [reflexivity|].
    destruct ins; cbn [firstn skipn Nat.add app]; [rewrite !firstn_nil; reflexivity|]. f_equal. apply IH.
  Qed.
  Lemma partial_0 (s : Fs) (p0 : E) ins : partial_combo s p0 ins 0 = p0.
  Proof. apply combo_1. Qed.
  Lemma partial_all (s : Fs) (p0 : E) ins k : (length ins <= k)%nat -> partial_combo s p0 ins k = combo s (p0 :: ins).
  Proof. intros H. unfold partial_combo. rewrite firstn_all2 by exact H. reflexivity. Qed.

  Lemma esc_chunks_len (s : Fs) : forall cs (acc : E), length (esc_chunks s acc cs) = length cs.
  Proof. induction cs as [|c cs IH]; intros acc; cbn [esc_chunks length]; [reflexivity|]. f_equal. apply IH. Qed.
  Lemma esc_chunks_nth (s : Fs) (p0 : E) ins d : forall fuel a k,
    (length (skipn a ins) <= fuel)%nat -> (k < length (chunks_go fuel 4 (skipn a ins)))%nat ->
    nth k (esc_chunks s (partial_combo s p0 ins a) (chunks_go fuel 4 (skipn a ins))) d = partial_combo s p0 ins (a + 4 * S k).
  Proof.
    induction fuel as [|fuel IH]; intros a k Hf Hk; [cbn in Hk; lia|].
    cbn [chunks_go] in *. destruct (skipn a ins) as [|x l] eqn:El; [cbn in Hk; lia|]. rewrite <- El in *.
    rewrite El in Hf. cbn [length] in Hf. cbn [esc_chunks].
    rewrite partial_next, skipn_add. cbn [length] in Hk. rewrite skipn_add in Hk. destruct k as [|k].
    - reflexivity.
    - cbn [nth]. rewrite IH.
      + f_equal. lia.
      + rewrite <- skipn_add, skipn_length, El. cbn [length]. lia.
      + lia.
  Qed.
  Lemma chunks_len {T : Type} (l : list T) i k : length l = i -> (0 < i)%nat -> num_steps (S i) = Some k -> length (chunks_go (length l) 4 l) = k.
  Proof.
    intros Hl Hi Hk. destruct (num_steps_ok i k Hk) as (K1 & K2 & K3 & K4). specialize (K4 Hi).
    pose proof (len_chunks 4 ltac:(lia) (length l) l (le_n _) k) as A. pose proof (len_chunks 4 ltac:(lia) (length l) l (le_n _) (k - 1)) as B.
    destruct A as [_ A], B as [B _]. specialize (A ltac:(lia)). destruct (Nat.le_gt_cases (length (chunks_go (length l) 4 l)) (k - 1)) as [X|X]; [specialize (B X); lia|lia].
  Qed.
  Lemma points_new_ok P (s : Fs) (pts : list E) k : length pts = P -> num_steps P = Some k ->
    exists p0 ins ints, pts = p0 :: ins /\ points_new P s pts = Some (mk_points p0 ins ints) /\ length ints = k /\
      forall j d, (j < k)%nat -> nth j ints d = partial_combo s p0 ins (4 * S j).
  Proof.
    intros HL Hk. destruct pts as [|p0 ins].
    - cbn in HL. subst P. discriminate.
    - cbn [length] in HL. subst P. exists p0, ins. unfold points_new. cbn [length]. rewrite Nat.eqb_refl. cbn [negb]. rewrite Hk.
      destruct ins as [|x ins'].
      + cbn [length]. assert (k = 1%nat) by (cbn in Hk; congruence). subst k. exists [p0]. split; [reflexivity|]. split; [reflexivity|].
        split; [reflexivity|]. intros [|j] d Hj; [|lia]. cbn [nth]. unfold partial_combo. rewrite firstn_nil. symmetry. apply combo_1.
      + set (ins := x :: ins') in *. unfold chunks, ENDOSCALINGS_PER_STEP. cbn [Nat.eqb option_map]. 
        assert (LC : length (chunks_go (length ins) 4 ins) = k) by (apply (chunks_len ins (length ins)); [reflexivity|subst ins; cbn; lia|exact Hk]).
        rewrite esc_chunks_len, LC, Nat.eqb_refl. eexists. split; [reflexivity|]. split; [reflexivity|]. split; [rewrite esc_chunks_len; exact LC|].
        intros j d Hj. rewrite <- (partial_0 s p0 ins) at 1. apply (esc_chunks_nth s p0 ins d (length ins) 0 j); cbn [skipn]; [lia|lia].
  Qed.
End W.

Section S.
  Variables (F Fs : Field) (b zeta : F) (lambda : Fs).
  Add Field FFet : (f_theory F).
  Add Field FFeu : (f_theory Fs).
  Open Scope f_scope.
  Variable E : CurveGroup F Fs b zeta lambda.
  Hypothesis twoF : (1 + 1 : F) <> 0.
  Hypothesis lam : lambda * lambda + lambda + 1 = 0.
  Local Notation aff := (cg_aff F Fs b zeta lambda E).
  Variable bs : list bool.
  Hypothesis ch : forall m, (0 < m < (3 * 2 ^ (length bs / 2)) * (3 * 2 ^ (length bs / 2)))%nat -> fnat m <> (0 : Fs).
  Let s : Fs := lift_bits Fs lambda bs ((lambda + 1) + (lambda + 1)).

  Lemma twoS : (1 + 1 : Fs) <> 0.
  Proof.
    replace (1 + 1 : Fs) with (fnat 2 : Fs) by (cbn [fnat]; ring). apply ch.
    assert (1 <= 2 ^ (length bs / 2))%nat by (apply Nat.neq_0_lt_0, Nat.pow_nonzero; lia). nia.
  Qed.
  Lemma x_clash (P Q : E) p q : aff P = Some p -> aff Q = Some q -> fst p = fst q -> P = Q \/ P = mscale (- (1)) Q.
  Proof.
    intros A B X. pose proof (cg_on _ _ _ _ _ E _ _ A) as Op. pose proof (cg_on _ _ _ _ _ E _ _ B) as Oq.
    unfold on_curve in *.
    assert (K : (snd p - snd q) * (snd p + snd q) = 0).
    { transitivity (snd p * snd p - snd q * snd q); [ring|]. rewrite Op, Oq, X. ring. }
    apply fmul_integral in K. destruct K as [K|K].
    - left. apply (cg_inj _ _ _ _ _ E). rewrite A, B.
      apply (proj1 (fsub_eq_0 F _ _)) in K. destruct p as [x y], q as [x' y']. cbn [fst snd] in *. rewrite X, K. reflexivity.
    - right. apply (cg_inj _ _ _ _ _ E). rewrite A.
      rewrite (cg_neg _ _ _ _ _ E _ _ B). destruct p as [x y], q as [x' y']. cbn [fst snd] in *. rewrite X. do 2 f_equal.
      transitivity (y + y' - y'); [ring|]. rewrite K. ring.
  Qed.
  Lemma x_apart (P Q : E) p q : aff P = Some p -> aff Q = Some q -> (fst p <> fst q <-> P <> Q /\ P <> mscale (- (1)) Q).
  Proof.
    intros A B. split.
    - intros X. split; intros H.
      + subst Q. apply X. congruence.
      + apply X. pose proof (cg_neg _ _ _ _ _ E _ _ B) as N. rewrite <- H, A in N. injection N as ->. reflexivity.
    - intros (H1 & H2) X. destruct (x_clash P Q p q A B X); auto.
  Qed.
  Lemma aff_nz (P : E) p : aff P = Some p -> P <> m0.
  Proof. intros A ->. rewrite (cg_inf _ _ _ _ _ E) in A. discriminate. Qed.

  (** the output of a scaling is a pair of wires whatever the input *)
  Lemma scale_go_shape : forall bs p acc r, holds (en_scale_go F F zeta (map (fun b => bwir (fe F b)) bs) (pwir p) (pwir acc)) r -> exists q, r = pwir q.
  Proof.
    induction bs0 as [|c|n e bs0 IH] using pair_ind; intros p acc r H; cbn [map en_scale_go] in H.
    - apply ret_w in H. eauto.
    - apply ret_w in H. eauto.
    - apply holds_bind in H. destruct H as (q1 & H1 & H). apply p_cond_negate_w in H1. subst q1.
      apply holds_bind in H. destruct H as (q2 & H2 & H). apply p_cond_endo_w in H2. subst q2.
      apply holds_bind in H. destruct H as (q3 & H3 & H). apply p_da_raw in H3. destruct H3 as (l1 & t2 & _ & _ & ->). eauto.
  Qed.
  Lemma scale_shape p r : holds (en_group_scale F F zeta (ewir F bs) (pwir p)) r -> exists q, r = pwir q.
  Proof.
    intros H. unfold en_group_scale in H. rewrite en_bools_w in H.
    apply holds_bind in H. destruct H as (q1 & H1 & H). apply p_endo_w in H1. subst q1.
    apply holds_bind in H. destruct H as (q2 & H2 & H). change (@None (elem F F)) with (nz_w F None) in H2. apply p_add_raw in H2. destruct H2 as (l & _ & ->).
    cbn [fst] in H. apply holds_bind in H. destruct H as (q3 & H3 & H). apply p_double_raw in H3. destruct H3 as (l' & _ & ->).
    eapply scale_go_shape. exact H.
  Qed.
  (** the running product only gains factors *)
  Lemma loop_factor : forall qs p z a nz, holds (esc_loop F F zeta (ewir F bs) (map pwir qs) (pwir p) (wir z)) (a, nz) ->
    exists t d, a = pwir t /\ nz = wir (z * d).
  Proof.
    induction qs as [|q qs IH]; intros p z a nz H; cbn [map esc_loop] in H.
    - apply ret_w in H. assert (a = pwir p /\ nz = wir z) as (-> & ->) by (split; congruence). exists p, 1. split; [reflexivity|]. f_equal. ring.
    - apply holds_bind in H. destruct H as (sc & H1 & H). destruct (scale_shape p sc H1) as (q1 & ->).
      apply holds_bind in H. destruct H as (an & H2 & H). change (Some (wir z)) with (nz_w F (Some z)) in H2. apply p_add_raw in H2.
      destruct H2 as (l & _ & ->). cbn [fst snd nz_w option_map] in H. destruct (IH _ _ _ _ H) as (t & d & -> & ->).
      exists t, ((fst q - fst q1) * d). split; [reflexivity|]. f_equal. ring.
  Qed.

  Lemma scale_ok (P : E) p : aff P = Some p ->
    exists t, aff (mscale s P) = Some t /\
      (forall r, holds (en_group_scale F F zeta (ewir F bs) (pwir p)) r <-> r = pwir t) /\
      (forall n v st, bs = map (nbit v) (seq 0 n) -> simulate (en_group_scale F F zeta (ehon F n v) (phon p)) st
         = Some (phon t, bump st 0 (7 + 7 * (n / 2)) (14 + 14 * (n / 2)))).
  Proof.
    intros A. destruct (group_scale_ok F Fs b zeta lambda E twoF twoS lam bs P p (aff_nz P p A) A ch) as (t & At & Hw & Hs).
    exists t. split; [exact At|]. split.
    - intros r. unfold en_group_scale. rewrite en_bools_w. apply Hw.
    - intros n v st Hb. unfold en_group_scale. rewrite en_bools_s, <- (map_map (nbit v) bhon), <- Hb.
      replace n with (length bs) by (rewrite Hb, map_length, seq_length; reflexivity). apply Hs.
  Qed.

  (** one addition in the group *)
  Lemma add_group (P Q : E) p q : aff P = Some p -> aff Q = Some q -> fst p <> fst q ->
    exists t, aff (madd P Q) = Some t /\
      (forall z r, holds (p_add_incomplete F F (pwir p) (pwir q) (Some (wir z))) r <-> r = (pwir t, Some (wir (z * (fst q - fst p))))) /\
      (forall z st, simulate (p_add_incomplete F F (phon p) (phon q) (Some (hon z))) st = Some ((phon t, Some (hon (z * (fst q - fst p)))), bump st 0 4 8)).
  Proof.
    intros A B X. pose proof (cg_on _ _ _ _ _ E _ _ A) as Op. pose proof (cg_on _ _ _ _ _ E _ _ B) as Oq.
    destruct (cg_add _ _ _ _ _ E _ _ _ _ A B X) as (t & At & St). exists t. split; [exact At|]. split.
    - intros z r. change (Some (wir z)) with (nz_w F (Some z)). rewrite (p_add_w F b twoF p q (Some z) r Op Oq X). split.
      + intros (t' & S' & ->). assert (t' = t) by (eapply (sum_fun F b twoF p q); eauto). subst t'. reflexivity.
      + intros ->. exists t. split; [exact St|reflexivity].
    - intros z st. change (Some (hon z)) with (nz_h F (Some z)). destruct (p_add_s F b twoF p q (Some z) st Op Oq X) as (t' & S' & ->).
      assert (t' = t) by (eapply (sum_fun F b twoF p q); eauto). subst t'. reflexivity.
  Qed.

  (** group-level condition for the additions along a list *)
  Fixpoint apart (acc : E) (qs : list E) : Prop :=
    match qs with
    | [] => True
    | q :: r => mscale s acc <> q /\ mscale s acc <> mscale (- (1)) q /\ apart (madd (mscale s acc) q) r
    end.
  Lemma loop_w : forall (Qs : list E) qs (P : E) p z r,
    map aff Qs = map Some qs -> aff P = Some p -> z <> 0 ->
    (exists a nz, holds (esc_loop F F zeta (ewir F bs) (map pwir qs) (pwir p) (wir z)) (a, nz) /\ exists d, nz = wir d /\ d <> 0 /\ r = a) <->
    apart P Qs /\ exists t, aff (esc_chunk s P Qs) = Some t /\ r = pwir t.
  Proof.
    induction Qs as [|Q Qs IH]; intros [|q qs] P p z r HQ A Hz; try discriminate; cbn [map esc_loop apart esc_chunk fold_left].
    - split.
      + intros (a & nz & H & d & -> & Hd & ->). apply ret_w in H. split; [exact I|]. exists p. split; [exact A|congruence].
      + intros (_ & t & At & ->). exists (pwir t), (wir z). assert (t = p) by congruence. subst t. split; [apply ret_w; reflexivity|]. exists z. auto.
    - cbn [map] in HQ. injection HQ as HQ1 HQ. destruct (scale_ok P p A) as (t & At & Hw & _).
      assert (HD : forall a nz, holds (gbind (en_group_scale F F zeta (ewir F bs) (pwir p)) (fun scaled =>
          gbind (p_add_incomplete F F scaled (pwir q) (Some (wir z))) (fun an => match snd an with Some nz => esc_loop F F zeta (ewir F bs) (map pwir qs) (fst an) nz | None => GErr end))) (a, nz)
        <-> holds (gbind (p_add_incomplete F F (pwir t) (pwir q) (Some (wir z))) (fun an => match snd an with Some nz => esc_loop F F zeta (ewir F bs) (map pwir qs) (fst an) nz | None => GErr end)) (a, nz)).
      { intros a nz. rewrite (holds_det F _ _ _ _ Hw). reflexivity. }
      destruct (feq_dec F (fst t) (fst q)) as [X|X].
      + split.
        * intros (a & nz & H & d & -> & Hd & ->). exfalso. apply HD in H. apply holds_bind in H. destruct H as (an & H1 & H).
          change (Some (wir z)) with (nz_w F (Some z)) in H1. apply p_add_raw in H1. destruct H1 as (l & _ & ->). cbn [fst snd nz_w option_map] in H.
          apply loop_factor in H. destruct H as (t' & d' & _ & Hn). apply (f_equal (ew F F)) in Hn. cbn [ew wir] in Hn. apply Hd. rewrite Hn, X. ring.
        * intros ((N1 & N2 & _) & _). exfalso. apply (proj2 (x_apart _ _ _ _ At HQ1) (conj N1 N2)). exact X.
      + destruct (add_group _ _ _ _ At HQ1 X) as (u & Au & Hu & _).
        assert (Hz' : z * (fst q - fst t) <> 0).
        { intros H. apply fmul_integral in H. destruct H as [H|H]; [auto|]. apply X. apply (proj1 (fsub_eq_0 F _ _)) in H. auto. }
        destruct (proj1 (x_apart _ _ _ _ At HQ1) X) as (N1 & N2).
        specialize (IH qs (madd (mscale s P) Q) u (z * (fst q - fst t)) r HQ Au Hz').
        assert (HE : forall a nz, holds (gbind (en_group_scale F F zeta (ewir F bs) (pwir p)) (fun scaled =>
          gbind (p_add_incomplete F F scaled (pwir q) (Some (wir z))) (fun an => match snd an with Some nz => esc_loop F F zeta (ewir F bs) (map pwir qs) (fst an) nz | None => GErr end))) (a, nz)
          <-> holds (esc_loop F F zeta (ewir F bs) (map pwir qs) (pwir u) (wir (z * (fst q - fst t)))) (a, nz)).
        { intros a nz. rewrite HD. rewrite (holds_det F _ _ _ _ (Hu z)). cbn [fst snd]. reflexivity. }
        split.
        * intros (a & nz & H & D). destruct (proj1 IH) as (AP & T); [exists a, nz; split; [apply HE; exact H|exact D]|]. split; [auto|exact T].
        * intros ((_ & _ & AP) & T). destruct (proj2 IH (conj AP T)) as (a & nz & H & D). exists a, nz. split; [apply HE; exact H|exact D].
  Qed.
  Lemma loop_s n v : bs = map (nbit v) (seq 0 n) -> forall (Qs : list E) qs (P : E) p z st,
    map aff Qs = map Some qs -> aff P = Some p -> z <> 0 -> apart P Qs ->
    exists t d, aff (esc_chunk s P Qs) = Some t /\ d <> 0 /\
      simulate (esc_loop F F zeta (ehon F n v) (map phon qs) (phon p) (hon z)) st
      = Some ((phon t, hon d), bump st 0 (length qs * (11 + 7 * (n / 2))) (2 * (length qs * (11 + 7 * (n / 2))))).
  Proof.
    intros Hb. induction Qs as [|Q Qs IH]; intros [|q qs] P p z st HQ A Hz AP; try discriminate; cbn [map esc_loop apart esc_chunk fold_left length] in *.
    - exists p, z. split; [exact A|]. split; [exact Hz|]. cbn [simulate]. f_equal. f_equal. destruct st; unfold bump; cbn; f_equal; lia.
    - injection HQ as HQ1 HQ. destruct (scale_ok P p A) as (t & At & _ & Hs). destruct AP as (N1 & N2 & AP).
      pose proof (proj2 (x_apart _ _ _ _ At HQ1) (conj N1 N2)) as X. destruct (add_group _ _ _ _ At HQ1 X) as (u & Au & _ & Hu).
      assert (Hz' : z * (fst q - fst t) <> 0).
      { intros H. apply fmul_integral in H. destruct H as [H|H]; [auto|]. apply X. apply (proj1 (fsub_eq_0 F _ _)) in H. auto. }
      rewrite sim_bind, (Hs n v st Hb), sim_bind, Hu. cbn [fst snd].
      destruct (IH qs _ u _ (bump (bump st 0 (7 + 7 * (n / 2)) (14 + 14 * (n / 2))) 0 4 8) HQ Au Hz' AP) as (t' & d & At' & Hd & ->).
      exists t', d. split; [exact At'|]. split; [exact Hd|]. rewrite !bump_bump. f_equal. f_equal. unfold bump; f_equal; lia.
  Qed.
  Lemma apart_clash (P0 : E) ins : forall l a, apart (partial_combo s P0 ins a) (firstn l (skipn a ins)) <-> no_clash s P0 ins a (a + l).
  Proof.
    induction l as [|l IH]; intros a.
    - cbn [firstn apart]. split; auto. intros _ i q Hi. lia.
    - assert (HS : skipn a ins = match nth_error ins a with Some q => q :: skipn (S a) ins | None => [] end).
      { clear. revert ins. induction a; intros [|x ins]; cbn; auto. apply IHa. }
      rewrite HS. destruct (nth_error ins a) as [q|] eqn:Eq.
      + cbn [firstn apart].
        assert (HN : madd (mscale s (partial_combo s P0 ins a)) q = partial_combo s P0 ins (S a)).
        { pose proof (partial_next s P0 ins a 1) as H. rewrite HS in H. cbn [firstn esc_chunk fold_left] in H. rewrite Nat.add_1_r in H. exact H. }
        rewrite HN, IH. split.
        * intros (N1 & N2 & NC) i q' Hi Hq'. destruct (Nat.eq_dec i a) as [->|D]; [assert (q' = q) by congruence; subst q'; auto|apply (NC i q'); [lia|exact Hq']].
        * intros NC. destruct (NC a q ltac:(lia) Eq) as (N1 & N2). split; [exact N1|]. split; [exact N2|]. intros i q' Hi Hq'. apply (NC i q'); [lia|exact Hq'].
      + rewrite firstn_nil. cbn [apart]. split; auto. intros _ i q Hi Hq. apply nth_error_None in Eq.
        assert (i < length ins)%nat by (apply nth_error_Some; congruence). lia.
  Qed.
  Lemma pequal_w p q r : holds (p_enforce_equal F F (pwir p) (pwir q)) r <-> p = q /\ r = tt.
  Proof.
    destruct p as [x y], q as [x' y']. unfold p_enforce_equal. cbn [pwir px py ew wir fst snd]. rewrite holds_bind. split.
    - intros (u & H1 & H2). apply equal_w in H1. apply equal_w in H2. destruct H1 as (-> & _), H2 as (-> & ->). auto.
    - intros (Heq & ->). injection Heq as -> ->. exists tt. split; apply equal_w; auto.
  Qed.

  (** the step circuit *)
  Lemma step_w (i k : nat) (P0 : E) (ins : list E) p0 qs (ints : list (F * F)) acc :
    length ins = i -> num_steps (S i) = Some k -> (0 < i)%nat -> length ints = k ->
    aff P0 = Some p0 -> map aff ins = map Some qs ->
    forall step, (step < k)%nat ->
    (match step with O => Some p0 | S j => nth_error ints j end) = Some acc -> aff (partial_combo s P0 ins (4 * step)) = Some acc ->
    forall r, holds (esc_step F F 1 zeta false (S i) step (ewir F bs) (pwir p0) (map pwir qs) (map pwir ints)) r <->
      no_clash s P0 ins (4 * step) (4 * S step) /\ aff (partial_combo s P0 ins (4 * S step)) = nth_error ints step /\ r = tt.
  Proof.
    intros Li Hk Hi Lk A0 AI step Hs HA Aacc r. destruct (num_steps_ok i k Hk) as (K1 & K2 & K3 & K4). specialize (K4 Hi).
    unfold esc_step. rewrite range_ok.
    assert (Lq : length qs = i) by (rewrite <- (map_length (@Some _)), <- AI, map_length; exact Li).
    assert (HA' : (match step with O => Some (pwir p0) | S j => nth_error (map pwir ints) j end) = Some (pwir acc)).
    { destruct step; [congruence|]. rewrite nth_error_map, HA. reflexivity. }
    rewrite HA'. set (is := seq (4 * step) (Nat.min 4 (i - 4 * step))).
    assert (Hin : forall j, In j is -> (j < i)%nat) by (intros j Hj; apply in_seq in Hj; lia).
    destruct is as [|j0 js] eqn:Eis; [exfalso; destruct (Nat.min 4 (i - 4 * step)) eqn:Em; [lia|discriminate]|]. subst is.
    rewrite (skipn_firstn_nth (map pwir qs) (4 * step) (Nat.min 4 (i - 4 * step)) (j0 :: js) (eq_sym Eis)) by (intros j Hj; rewrite map_length, Lq; apply Hin; exact Hj).
    destruct (nth_error ints step) as [out|] eqn:Eo; [|apply nth_error_None in Eo; lia].
    rewrite nth_error_map, Eo. cbn [option_map].
    rewrite skipn_map, firstn_map. set (m := Nat.min 4 (i - 4 * step)) in *.
    assert (Q' : map aff (firstn m (skipn (4 * step) ins)) = map Some (firstn m (skipn (4 * step) qs))).
    { rewrite <- firstn_map, <- skipn_map, AI, skipn_map, firstn_map. reflexivity. }
    assert (PN : esc_chunk s (partial_combo s P0 ins (4 * step)) (firstn m (skipn (4 * step) ins)) = partial_combo s P0 ins (4 * S step)).
    { rewrite partial_next. unfold m. destruct (Nat.le_gt_cases 4 (i - 4 * step)).
      - f_equal. lia.
      - rewrite (partial_all s P0 ins (4 * S step)) by lia. apply partial_all. lia. }
    assert (NC : apart (partial_combo s P0 ins (4 * step)) (firstn m (skipn (4 * step) ins)) <-> no_clash s P0 ins (4 * step) (4 * S step)).
    { rewrite apart_clash. split; intros H j q Hj Hq; apply (H j q); try exact Hq;
        assert (j < length ins)%nat by (apply nth_error_Some; congruence); unfold m in *; lia. }
    assert (LW : forall rr, (exists a nz, holds (esc_loop F F zeta (ewir F bs) (map pwir (firstn m (skipn (4 * step) qs))) (pwir acc) (wir 1)) (a, nz) /\ exists d, nz = wir d /\ d <> 0 /\ rr = a) <->
      no_clash s P0 ins (4 * step) (4 * S step) /\ exists t, aff (partial_combo s P0 ins (4 * S step)) = Some t /\ rr = pwir t).
    { intros rr. rewrite (loop_w _ _ _ _ 1 rr Q' Aacc (f1_neq_0 F)), PN, NC. reflexivity. }
    change (e_one F F 1 false) with (wir (1 : F)).
    rewrite holds_bind. split.
    - intros ([a nz] & H1 & H). cbn [fst snd] in H. apply holds_bind in H. destruct H as (iv & H2 & H3).
      destruct (loop_factor _ _ _ _ _ H1) as (t & d & -> & ->). apply e_invert_w in H2. destruct H2 as (Hd & _).
      destruct (proj1 (LW (pwir t))) as (NCL & t' & At & Et).
      { exists (pwir t), (wir (1 * d)). split; [exact H1|]. exists (1 * d). auto. }
      apply pequal_w in H3. destruct H3 as (-> & ->). split; [exact NCL|]. split; [|reflexivity]. rewrite At. f_equal.
      destruct out, t'. unfold pwir in Et. cbn in Et. injection Et as -> ->. reflexivity.
    - intros (NCL & At & ->). destruct (proj2 (LW (pwir out))) as (a & nz & H1 & d & -> & Hd & <-).
      { split; [exact NCL|]. exists out. auto. }
      exists (pwir out, wir d). split; [exact H1|]. cbn [fst snd]. apply holds_bind. exists (wir (finv d)). split; [apply e_invert_w; auto|].
      apply pequal_w. auto.
  Qed.
  Lemma step_s n v (i k : nat) (P0 : E) (ins : list E) p0 qs (ints : list (F * F)) acc out :
    bs = map (nbit v) (seq 0 n) ->
    length ins = i -> num_steps (S i) = Some k -> (0 < i)%nat -> length ints = k ->
    aff P0 = Some p0 -> map aff ins = map Some qs ->
    forall step, (step < k)%nat ->
    (match step with O => Some p0 | S j => nth_error ints j end) = Some acc -> aff (partial_combo s P0 ins (4 * step)) = Some acc ->
    nth_error ints step = Some out -> aff (partial_combo s P0 ins (4 * S step)) = Some out ->
    no_clash s P0 ins (4 * step) (4 * S step) ->
    forall st, simulate (esc_step F F 1 zeta true (S i) step (ehon F n v) (phon p0) (map phon qs) (map phon ints)) st
      = Some (tt, let g := (Nat.min 4 (i - 4 * step) * (11 + 7 * (n / 2)))%nat in bump st 0 (g + 1) (2 * g + 4)).
  Proof.
    intros Hb Li Hk Hi Lk A0 AI step Hs HA Aacc Eo Aout NCL st. destruct (num_steps_ok i k Hk) as (K1 & K2 & K3 & K4). specialize (K4 Hi).
    unfold esc_step. rewrite range_ok.
    assert (Lq : length qs = i) by (rewrite <- (map_length (@Some _)), <- AI, map_length; exact Li).
    assert (HA' : (match step with O => Some (phon p0) | S j => nth_error (map phon ints) j end) = Some (phon acc)).
    { destruct step; [congruence|]. rewrite nth_error_map, HA. reflexivity. }
    rewrite HA'. set (is := seq (4 * step) (Nat.min 4 (i - 4 * step))).
    assert (Hin : forall j, In j is -> (j < i)%nat) by (intros j Hj; apply in_seq in Hj; lia).
    destruct is as [|j0 js] eqn:Eis; [exfalso; destruct (Nat.min 4 (i - 4 * step)) eqn:Em; [lia|discriminate]|]. subst is.
    rewrite (skipn_firstn_nth (map phon qs) (4 * step) (Nat.min 4 (i - 4 * step)) (j0 :: js) (eq_sym Eis)) by (intros j Hj; rewrite map_length, Lq; apply Hin; exact Hj).
    rewrite nth_error_map, Eo. cbn [option_map].
    rewrite skipn_map, firstn_map. set (m := Nat.min 4 (i - 4 * step)) in *.
    assert (Q' : map aff (firstn m (skipn (4 * step) ins)) = map Some (firstn m (skipn (4 * step) qs))).
    { rewrite <- firstn_map, <- skipn_map, AI, skipn_map, firstn_map. reflexivity. }
    assert (PN : esc_chunk s (partial_combo s P0 ins (4 * step)) (firstn m (skipn (4 * step) ins)) = partial_combo s P0 ins (4 * S step)).
    { rewrite partial_next. unfold m. destruct (Nat.le_gt_cases 4 (i - 4 * step)).
      - f_equal. lia.
      - rewrite (partial_all s P0 ins (4 * S step)) by lia. apply partial_all. lia. }
    assert (NC : apart (partial_combo s P0 ins (4 * step)) (firstn m (skipn (4 * step) ins))).
    { rewrite apart_clash. intros j q Hj Hq. apply (NCL j q); [unfold m in *; lia|exact Hq]. }
    change (e_one F F 1 true) with (hon (1 : F)).
    destruct (loop_s n v Hb _ _ _ _ 1 st Q' Aacc (f1_neq_0 F) NC) as (t & d & At & Hd & EL).
    rewrite sim_bind, EL. cbn [fst snd]. rewrite sim_bind, e_invert_s, (proj2 (feqb_false F d 0) Hd).
    rewrite PN in At. assert (t = out) by congruence. subst t. unfold p_enforce_equal. destruct out as [x y]. cbn [phon px py ew hon fst snd].
    rewrite sim_bind, equal_s by reflexivity. rewrite equal_s by reflexivity. rewrite !bump_bump. rewrite firstn_length, skipn_length, Lq.
    replace (Nat.min m (i - 4 * step)) with m by (unfold m; lia). fold m. cbv zeta. do 2 f_equal; lia.
  Qed.
End S.
