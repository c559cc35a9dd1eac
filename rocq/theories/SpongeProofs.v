(** The sponge circuit computes the duplex specification. *)
From Coq Require Import List Arith NArith ZArith Bool Lia Ring Field.
From Verif Require Import FieldDef ArithModel ArithSpec GadgetModel GadgetSpec GadgetProofs Runs SpongeModel SpongeSpec.
Import ListNotations.
Open Scope f_scope.

Section Perm.
  Variable F : Field.
  Add Field FFsp : (f_theory F).
  Variable wit : bool.
  Variable P : pparams F.
  Local Notation e := (el wit).

  Lemma r_sbox vs : pp_ALPHA P = 5%Z ->
    runs wit (sbox F F P (map e vs)) (map e (map (fun x => x ^ 5) vs)) (3 * length vs) (6 * length vs).
  Proof.
    intros A. induction vs as [|x vs IH].
    - apply runs_ret.
    - cbn [map sbox]. rewrite A. cbn [Z.eqb Pos.eqb].
      eapply runs_cost.
      + eapply runs_bind; [apply r_square|]. eapply runs_bind; [apply r_square|]. eapply runs_bind; [apply r_mul|].
        eapply runs_bind; [apply IH|]. eapply runs_val; [apply runs_ret|]. do 2 f_equal. unfold fpow; cbn [Nat.iter nat_rect]. cbn. ring.
      + cbn [length]. lia.
      + cbn [length]. lia.
  Qed.
  Lemma r_mds_rows vs rows : Forall (fun row => length row = length vs) rows ->
    runs wit (mds_rows F F wit (map e vs) rows)
         (map e (map (fun row => lsum (map (fun vc => fst vc * snd vc) (combine vs row))) rows)) 0 0.
  Proof.
    intros H. induction H as [|row rows L H IH]; [apply runs_ret|]. cbn [mds_rows map].
    apply runs_bind0 with (v := e (lsum (map (fun vc => fst vc * snd vc) (combine vs row)))); [now apply r_multiadd|].
    eapply runs_bind0; [apply IH|]. apply runs_ret.
  Qed.
  Lemma r_add_rcs vs : forall rc, length vs = length rc ->
    runs wit (add_rcs F F 1 wit (map e vs) rc) (map e (map (fun vc => fst vc + snd vc) (combine vs rc))) 0 0.
  Proof.
    induction vs as [|v vs IH]; intros [|c rc] L; try discriminate; [apply runs_ret|].
    cbn [map add_rcs combine fst snd]. rewrite r_one.
    eapply runs_bind0; [apply r_add_coeff|]. eapply runs_bind0; [apply IH; cbn in L; lia|].
    eapply runs_val; [apply runs_ret|]. do 2 f_equal. cbn [c_value]. ring.
  Qed.
  Lemma nth_combine_map {A : Type} (f : F * F -> A) (d : A) l l' j : length l = length l' -> (j < length l)%nat ->
    nth j (map f (combine l l')) d = f (nth j l 0, nth j l' 0).
  Proof.
    intros L H. rewrite (nth_indep _ d (f (0, 0))) by (rewrite map_length, combine_length; lia).
    rewrite map_nth, combine_nth by exact L. reflexivity.
  Qed.
  Lemma r_round vs (full : bool) rc : wf_params P -> length vs = pp_T P -> length rc = pp_T P ->
    runs wit (round F F 1 wit P (map e vs) (if full then pp_T P else 1%nat) rc)
         (map e (round_spec F P full rc vs))
         (3 * (if full then pp_T P else 1)) (6 * (if full then pp_T P else 1)).
  Proof.
    intros (A & R & LM & M & _ & _) Lv Lr. unfold round, add_round_constants.
    rewrite map_length, Lv, Lr, Nat.eqb_refl. eapply runs_bind0; [apply r_add_rcs; congruence|].
    set (z := map (fun vc => fst vc + snd vc) (combine vs rc)).
    assert (Lz : length z = pp_T P) by (unfold z; rewrite map_length, combine_length; lia).
    set (k := if full then pp_T P else 1%nat). assert (Hk : (k <= pp_T P)%nat) by (unfold k; destruct full; lia).
    rewrite map_length, Lz, (proj2 (Nat.leb_le _ _) Hk). rewrite firstn_map.
    eapply runs_cost; [eapply runs_bind|..].
    - now apply r_sbox.
    - rewrite skipn_map, <- map_app. unfold mds.
      assert (Ly : length (map (fun x => x ^ 5) (firstn k z) ++ skipn k z) = pp_T P).
      { rewrite app_length, map_length, firstn_length, skipn_length. lia. }
      rewrite map_length, Ly, LM, Nat.eqb_refl. eapply runs_val; [apply r_mds_rows; rewrite Ly; exact M|].
      f_equal. unfold round_spec. apply map_ext_in. intros row Hrow. rewrite Forall_forall in M. apply M in Hrow.
      rewrite lsum_fsum, map_length, combine_length, Ly, Hrow, Nat.min_id. apply fsum_ext. intros j Hj.
      rewrite nth_combine_map by lia. cbn [fst snd]. f_equal.
      assert (Ez : nth j z 0 = nth j vs 0 + nth j rc 0) by (unfold z; now rewrite nth_combine_map by lia).
      rewrite <- Ez. destruct (Nat.lt_ge_cases j k) as [K|K].
      + rewrite app_nth1 by (rewrite map_length, firstn_length; lia).
        rewrite (nth_indep _ 0 ((fun x : F => x ^ 5) 0)) by (rewrite map_length, firstn_length; lia).
        rewrite (map_nth (fun x : F => x ^ 5)). rewrite nth_firstn_lt by exact K.
        unfold k in K. destruct full; cbn [orb]; auto. replace (Nat.eqb j 0) with true by (symmetry; apply Nat.eqb_eq; lia). auto.
      + rewrite app_nth2 by (rewrite map_length, firstn_length; lia). rewrite map_length, firstn_length, nth_skipn.
        replace (k + (j - Nat.min k (length z)))%nat with j by lia.
        unfold k in K. destruct full; cbn [orb]; [lia|]. replace (Nat.eqb j 0) with false by (symmetry; apply Nat.eqb_neq; lia). auto.
    - rewrite firstn_length. fold k. lia.
    - rewrite firstn_length. fold k. lia.
  Qed.
  Definition plan_k (r : nat) : nat := if is_full F P r then pp_T P else 1%nat.
  Fixpoint sumn (l : list nat) : nat := match l with [] => 0 | a :: r => a + sumn r end.
  Lemma sumn_app l l' : sumn (l ++ l') = (sumn l + sumn l')%nat.
  Proof. induction l; cbn; lia. Qed.
  Lemma sumn_repeat a n : sumn (repeat a n) = (n * a)%nat.
  Proof. induction n; cbn; lia. Qed.
  Lemma round_spec_length full rc vs : wf_params P -> length (round_spec F P full rc vs) = pp_T P.
  Proof. intros (_ & _ & L & _). unfold round_spec. now rewrite map_length. Qed.
  Lemma r_rounds n : forall r vs, wf_params P -> length vs = pp_T P -> (r + n <= length (pp_rcs P))%nat ->
    runs wit (rounds F F 1 wit P (map e vs) (map plan_k (seq r n)) (skipn r (pp_rcs P)))
         (map e (fold_left (fun v r => round_spec F P (is_full F P r) (nth r (pp_rcs P) []) v) (seq r n) vs))
         (3 * sumn (map plan_k (seq r n))) (6 * sumn (map plan_k (seq r n))).
  Proof.
    induction n as [|n IH]; intros r vs W L B; [apply runs_ret|].
    cbn [seq map rounds fold_left sumn].
    assert (E : skipn r (pp_rcs P) = nth r (pp_rcs P) [] :: skipn (S r) (pp_rcs P)).
    { clear - B. revert r B. generalize (pp_rcs P). intros l. induction l as [|a l IH]; intros r B; cbn in *; [lia|].
      destruct r; auto. cbn [skipn nth]. rewrite IH by lia. reflexivity. }
    rewrite E. assert (Lr : length (nth r (pp_rcs P) []) = pp_T P).
    { destruct W as (_ & _ & _ & _ & _ & Hr). rewrite Forall_forall in Hr. apply Hr, nth_In. lia. }
    eapply runs_cost; [eapply runs_bind|..].
    - unfold plan_k at 1. apply r_round; auto.
    - apply IH; auto; [now apply round_spec_length|lia].
    - unfold plan_k. lia.
    - unfold plan_k. lia.
  Qed.
  Lemma plan_eq : repeat (pp_T P) (Nat.div (pp_FULL P) 2) ++ repeat 1%nat (pp_PARTIAL P) ++ repeat (pp_T P) (Nat.div (pp_FULL P) 2)
    = map plan_k (seq 0 (2 * Nat.div (pp_FULL P) 2 + pp_PARTIAL P)).
  Proof.
    set (h := Nat.div (pp_FULL P) 2). set (m := pp_PARTIAL P).
    replace (2 * h + m)%nat with (h + (m + h))%nat by lia. rewrite !seq_app, !map_app.
    assert (K : forall c s n, (forall i, (s <= i < s + n)%nat -> plan_k i = c) -> map plan_k (seq s n) = repeat c n).
    { intros c s n. revert s. induction n as [|n IH]; intros s H; cbn; auto. rewrite H by lia. f_equal. apply IH. intros; apply H; lia. }
    f_equal; [symmetry; apply K|f_equal; symmetry; apply K]; intros i Hi; unfold plan_k, is_full; fold h m.
    - replace (Nat.ltb i h) with true by (symmetry; apply Nat.ltb_lt; lia). reflexivity.
    - replace (Nat.ltb i h) with false by (symmetry; apply Nat.ltb_ge; lia).
      replace (Nat.leb (h + m) i) with false by (symmetry; apply Nat.leb_gt; lia). reflexivity.
    - replace (Nat.leb (h + m) i) with true by (symmetry; apply Nat.leb_le; lia). now rewrite orb_true_r.
  Qed.
  Lemma poseidon_length vs : wf_params P -> length vs = pp_T P -> length (poseidon P vs) = pp_T P.
  Proof.
    intros W. unfold poseidon. generalize (seq 0 (2 * Nat.div (pp_FULL P) 2 + pp_PARTIAL P)). intros l. revert vs.
    induction l as [|r l IH]; intros vs L; cbn [fold_left]; auto. apply IH. now apply round_spec_length.
  Qed.
  Definition perm_gates : nat := 3 * (2 * Nat.div (pp_FULL P) 2 * pp_T P + pp_PARTIAL P).
  Lemma r_permutation vs : wf_params P -> length vs = pp_T P ->
    runs wit (permutation F F 1 wit P (map e vs)) (map e (poseidon P vs)) perm_gates (2 * perm_gates).
  Proof.
    intros W L. unfold permutation. rewrite plan_eq. pose proof W as (_ & _ & _ & _ & B & _).
    eapply runs_cost; [exact (r_rounds _ 0 vs W L B)|..]; rewrite <- plan_eq, !sumn_app, !sumn_repeat; unfold perm_gates; lia.
  Qed.
End Perm.

Section Vec.
  Variable F : Field.
  Add Field FFsv : (f_theory F).
  Lemma nth_add_block (v b : list F) i : (i < length v)%nat -> nth i (add_block v b) 0 = nth i v 0 + nth i b 0.
  Proof.
    intros H. unfold add_block. rewrite (nth_indep _ 0 ((fun i => nth i v 0 + nth i b 0) 0%nat)) by now rewrite map_length, seq_length.
    rewrite (map_nth (fun i => nth i v 0 + nth i b 0)), seq_nth by exact H. reflexivity.
  Qed.
  Lemma add_block_length (v b : list F) : length (add_block v b) = length v.
  Proof. unfold add_block. now rewrite map_length, seq_length. Qed.
  Lemma add_block_nil (v : list F) : add_block v [] = v.
  Proof.
    apply (nth_ext _ _ 0 0); [apply add_block_length|]. rewrite add_block_length. intros i H. rewrite nth_add_block by exact H.
    destruct i; cbn [nth]; ring.
  Qed.
  Lemma add_block_cons (a : F) v x b : add_block (a :: v) (x :: b) = (a + x) :: add_block v b.
  Proof. unfold add_block. cbn [length seq map nth]. f_equal. rewrite <- seq_shift, map_map. reflexivity. Qed.
  Lemma add_at_length (v : list F) i x : (i < length v)%nat -> length (add_at v i x) = length v.
  Proof. intros H. unfold add_at. rewrite app_length, firstn_length. cbn [length]. rewrite skipn_length. lia. Qed.
  Lemma nth_add_at (v : list F) i x j : (i < length v)%nat ->
    nth j (add_at v i x) 0 = if Nat.eqb j i then nth i v 0 + x else nth j v 0.
  Proof.
    intros H. unfold add_at. destruct (Nat.eqb_spec j i) as [->|N].
    - rewrite app_nth2 by (rewrite firstn_length; lia). rewrite firstn_length.
      replace (i - Nat.min i (length v))%nat with 0%nat by lia. reflexivity.
    - destruct (Nat.lt_ge_cases j i).
      + rewrite app_nth1 by (rewrite firstn_length; lia). now rewrite nth_firstn_lt.
      + rewrite app_nth2 by (rewrite firstn_length; lia). rewrite firstn_length.
        replace (j - Nat.min i (length v))%nat with (S (j - i - 1)) by lia. cbn [nth]. rewrite nth_skipn. f_equal. lia.
  Qed.
  Lemma add_block_snoc (v b : list F) x : (length b < length v)%nat ->
    add_block v (b ++ [x]) = add_at (add_block v b) (length b) x.
  Proof.
    intros H. apply (nth_ext _ _ 0 0).
    - rewrite add_at_length by (rewrite add_block_length; lia). now rewrite !add_block_length.
    - rewrite add_block_length. intros i Hi. rewrite nth_add_at by (rewrite add_block_length; lia).
      rewrite !nth_add_block by lia. destruct (Nat.eqb_spec i (length b)) as [->|N].
      + rewrite app_nth2, Nat.sub_diag by lia. rewrite (nth_overflow b) by lia. cbn [nth]. ring.
      + destruct (Nat.lt_ge_cases i (length b)).
        * now rewrite app_nth1.
        * rewrite (nth_overflow (b ++ [x])) by (rewrite app_length; cbn; lia). now rewrite (nth_overflow b) by lia.
  Qed.
End Vec.

Section Sponge.
  Variable F : Field.
  Add Field FFsq : (f_theory F).
  Variable wit : bool.
  Variable P : pparams F.
  Local Notation e := (el wit).
  Local Notation rate := (pp_RATE P).
  Local Notation width := (pp_T P).
  Variable perm : list (elem F F) -> G F F (list (elem F F)).
  Variable pi : list F -> list F.
  Variables gp cp : nat.
  Hypothesis rate_ok : (1 <= rate <= width)%nat.
  Hypothesis perm_ok : forall v, length v = width -> length (pi v) = width /\ runs wit (perm (map e v)) (map e (pi v)) gp cp.

  Lemma r_add_values vs : forall b, (length b <= length vs)%nat ->
    runs wit (add_values F F (map e vs) (map e b)) (map e (add_block vs b)) 0 0.
  Proof.
    induction vs as [|v vs IH]; intros [|x b] L; cbn [map add_values]; cbn [length] in L.
    - apply runs_ret.
    - lia.
    - eapply runs_val; [apply runs_ret|]. now rewrite add_block_nil.
    - eapply runs_bind0; [apply r_add|]. eapply runs_bind0; [apply IH; lia|]. rewrite add_block_cons. apply runs_ret.
  Qed.
  Lemma get_rate_map st : get_rate F F P (map e st) = map e (rev (firstn rate st)).
  Proof. unfold get_rate. rewrite firstn_map, map_rev. reflexivity. Qed.

  (** representation of duplex states by sponge modes *)
  Definition rep (m : sponge F F) (d : duplex F) : Prop :=
    length (d_vec d) = width /\ (d_pos d <= rate)%nat /\
    if d_squeezing d
    then m = SqueezeMode (map e (rev (skipn (d_pos d) (firstn rate (d_vec d))))) (map e (d_vec d))
    else exists st vals, m = AbsorbMode (map e vals) (map e st) /\ length st = width /\
           length vals = d_pos d /\ d_vec d = add_block st vals.
  Lemma rep_new : runs wit (sp_new F F 1 wit P) (AbsorbMode [] (map e (repeat 0 width))) 0 0 /\
                  rep (AbsorbMode [] (map e (repeat 0 width))) (d_new width).
  Proof.
    split.
    - unfold sp_new. eapply runs_bind0; [apply r_zero|]. eapply runs_val; [apply runs_ret|].
      f_equal. generalize width. intros n. induction n; cbn; congruence.
    - unfold rep, d_new. cbn [d_vec d_pos d_squeezing]. rewrite repeat_length. split; [auto|]. split; [lia|].
      exists (repeat 0 width), []. rewrite repeat_length, add_block_nil. auto.
  Qed.
  Lemma rep_fresh_absorb st n : length st = width -> rep (AbsorbMode [] (map e st)) (mk_duplex st 0 false n).
  Proof.
    intros L. unfold rep. cbn. split; [auto|]. split; [lia|]. exists st, []. rewrite add_block_nil. auto.
  Qed.
  Lemma rep_fresh_squeeze st n : length st = width ->
    rep (SqueezeMode (get_rate F F P (map e st)) (map e st)) (mk_duplex st 0 true n).
  Proof. intros L. unfold rep. cbn [d_vec d_pos d_squeezing]. rewrite get_rate_map. auto with arith. Qed.
  (** permuting from absorb mode *)
  Lemma r_permute_absorb vals st d : rep (AbsorbMode (map e vals) (map e st)) d -> d_squeezing d = false ->
    runs wit (sp_permute F F P perm (AbsorbMode (map e vals) (map e st))) (AbsorbMode [] (map e (pi (d_vec d)))) gp cp
    /\ length (pi (d_vec d)) = width.
  Proof.
    intros (L & Pd & R) S. rewrite S in R. destruct R as (st' & vals' & E & Ls & Lv & Ev).
    destruct (perm_ok (d_vec d) L) as [Lp Rp]. split; auto. rewrite E. cbn [sp_permute].
    eapply runs_bind0; [apply r_add_values; lia|]. rewrite <- Ev.
    apply runs_bindr with (f := fun st => AbsorbMode [] st). exact Rp.
  Qed.
  Lemma absorb_push fuel st vals x : (length vals < rate)%nat ->
    runs wit (sp_absorb_go F F P perm (S fuel) (AbsorbMode (map e vals) (map e st)) (e x))
         (AbsorbMode (map e (vals ++ [x])) (map e st)) 0 0.
  Proof.
    intros H. cbn [sp_absorb_go]. rewrite map_length.
    replace (Nat.eqb (length vals) rate) with false by (symmetry; apply Nat.eqb_neq; lia).
    rewrite map_app. apply runs_ret.
  Qed.
  Lemma absorb_ok m d x : rep m d ->
    exists m', rep m' (d_absorb rate pi d x) /\
      exists g c, runs wit (sp_absorb F F P perm m (e x)) m' g c /\
        (gp * d_perms (d_absorb rate pi d x) = gp * d_perms d + g)%nat /\ (cp * d_perms (d_absorb rate pi d x) = cp * d_perms d + c)%nat.
  Proof.
    intros R. pose proof R as (L & Pd & M). unfold d_absorb. destruct (d_squeezing d) eqn:S.
    - subst m. exists (AbsorbMode (map e [x]) (map e (d_vec d))). split.
      + unfold rep, d_put. cbn [d_vec d_pos d_squeezing]. rewrite add_at_length by lia. split; [auto|]. split; [lia|].
        exists (d_vec d), [x]. split; [auto|]. split; [auto|]. split; [auto|].
        change [x] with ([] ++ [x]). rewrite add_block_snoc by (cbn; lia). now rewrite add_block_nil.
      + exists 0%nat, 0%nat. split; [|cbn; lia]. unfold sp_absorb. cbn [sp_absorb_go].
        eapply runs_bind0.
        * apply (absorb_push 1 (d_vec d) []). cbn. lia.
        * cbn. apply runs_ret.
    - destruct M as (st & vals & -> & Ls & Lv & Ev). destruct (Nat.eqb_spec (d_pos d) rate) as [E|N].
      + destruct (r_permute_absorb vals st d R S) as [Rp Lp].
        exists (AbsorbMode (map e [x]) (map e (pi (d_vec d)))). split.
        * unfold rep, d_put, d_permute. cbn [d_vec d_pos d_squeezing]. rewrite add_at_length by lia. split; [auto|]. split; [lia|].
          exists (pi (d_vec d)), [x]. split; [auto|]. split; [auto|]. split; [auto|].
          change [x] with ([] ++ [x]). rewrite add_block_snoc by (cbn; lia). now rewrite add_block_nil.
        * exists gp, cp. split; [|cbn; lia]. unfold sp_absorb. cbn [sp_absorb_go]. rewrite map_length, Lv, E, Nat.eqb_refl.
          eapply runs_cost; [eapply runs_bind; [exact Rp|]|apply Nat.add_0_r|apply Nat.add_0_r].
          eapply runs_bind0; [apply (absorb_push 1 (pi (d_vec d)) []); cbn; lia|]. apply runs_ret.
      + exists (AbsorbMode (map e (vals ++ [x])) (map e st)). split.
        * unfold rep, d_put. cbn [d_vec d_pos d_squeezing]. rewrite add_at_length by lia. split; [auto|]. split; [lia|].
          exists st, (vals ++ [x]). rewrite app_length, Ev, <- Lv. cbn [length]. rewrite add_block_snoc by lia.
          split; [auto|]. split; [auto|]. split; [lia|auto].
        * exists 0%nat, 0%nat. split; [|cbn; lia]. apply absorb_push. lia.
  Qed.
  Lemma skipn_S_nth (l : list F) i : (i < length l)%nat -> skipn i l = nth i l 0 :: skipn (S i) l.
  Proof.
    revert i. induction l as [|a l IH]; intros i H; cbn in H; [lia|]. destruct i; auto. cbn [skipn nth]. apply IH. lia.
  Qed.
  (** squeezing when output remains *)
  Lemma squeeze_pop fuel d : length (d_vec d) = width -> (d_pos d < rate)%nat ->
    runs wit (sp_squeeze_go F F P perm (S fuel) (SqueezeMode (map e (rev (skipn (d_pos d) (firstn rate (d_vec d))))) (map e (d_vec d))))
         (inr (e (fst (d_get d)), SqueezeMode (map e (rev (skipn (S (d_pos d)) (firstn rate (d_vec d))))) (map e (d_vec d)))) 0 0
    /\ rep (SqueezeMode (map e (rev (skipn (S (d_pos d)) (firstn rate (d_vec d))))) (map e (d_vec d))) (snd (d_get d)).
  Proof.
    intros L H. assert (Lf : length (firstn rate (d_vec d)) = rate) by (rewrite firstn_length; lia). split.
    - cbn [sp_squeeze_go]. rewrite <- map_rev, rev_involutive, skipn_S_nth by lia. cbn [map].
      eapply runs_val; [apply runs_ret|]. rewrite nth_firstn_lt by exact H. unfold d_get. cbn [fst]. rewrite map_rev. reflexivity.
    - unfold rep, d_get. cbn [snd d_vec d_pos d_squeezing]. split; [auto|]. split; [lia|reflexivity].
  Qed.
  Lemma squeeze_ok m d : rep m d ->
    match d_squeeze rate pi d with
    | inl er => runs wit (sp_squeeze F F P perm m) (inl er) 0 0
    | inr (x, d') => exists m', rep m' d' /\
        exists g c, runs wit (sp_squeeze F F P perm m) (inr (e x, m')) g c /\
          (gp * d_perms d' = gp * d_perms d + g)%nat /\ (cp * d_perms d' = cp * d_perms d + c)%nat
    end.
  Proof.
    intros R. pose proof R as (L & Pd & M). unfold d_squeeze, sp_squeeze. destruct (d_squeezing d) eqn:S.
    - subst m. destruct (Nat.eqb_spec (d_pos d) rate) as [E|N].
      + destruct (perm_ok (d_vec d) L) as [Lp Rp].
        destruct (squeeze_pop 1 (d_permute pi d true)) as [H1 H2]; [exact Lp|cbn; lia|].
        destruct (d_get (d_permute pi d true)) as [x d'] eqn:G. cbn [fst snd] in *.
        eexists. split; [exact H2|]. exists gp, cp. split.
        * cbn [sp_squeeze_go]. rewrite E, skipn_all2 by (rewrite firstn_length; lia). cbn [rev map sp_permute].
          eapply runs_cost; [eapply runs_bind|apply Nat.add_0_r|apply Nat.add_0_r].
          -- apply runs_bindr with (f := fun st => SqueezeMode (get_rate F F P st) st). exact Rp.
          -- rewrite get_rate_map. exact H1.
        * inversion G. cbn. lia.
      + destruct (squeeze_pop 2 d) as [H1 H2]; [exact L|lia|].
        destruct (d_get d) as [x d'] eqn:G. cbn [fst snd] in *.
        eexists. split; [exact H2|]. exists 0%nat, 0%nat. split; [exact H1|]. inversion G. cbn. lia.
    - destruct M as (st & vals & -> & Ls & Lv & Ev). destruct (Nat.eqb_spec (d_pos d) 0) as [E|N].
      + destruct vals; [|cbn in Lv; lia]. cbn. apply runs_ret.
      + destruct (r_permute_absorb vals st d R S) as [Rp Lp].
        destruct (squeeze_pop 1 (d_permute pi d true)) as [H1 H2]; [exact Lp|cbn; lia|].
        destruct (d_get (d_permute pi d true)) as [x d'] eqn:G. cbn [fst snd] in *.
        eexists. split; [exact H2|]. exists gp, cp. split.
        * cbn [sp_squeeze_go]. destruct vals as [|v vals]; [cbn in Lv; lia|]. cbn [map].
          change (e v :: map e vals) with (map e (v :: vals)).
          eapply runs_cost; [eapply runs_bind; [exact Rp|]|apply Nat.add_0_r|apply Nat.add_0_r].
          cbn [sp_state]. rewrite get_rate_map. exact H1.
        * inversion G. cbn. lia.
  Qed.
  Lemma save_ok m d : rep m d ->
    match d_save_resume pi d with
    | inl er => runs wit (sp_save F F P perm m) (inl er) 0 0
    | inr d' => runs wit (sp_save F F P perm m) (inr (map e (d_vec d'))) gp cp /\
                rep (sp_resume F F P (map e (d_vec d'))) d' /\ d_perms d' = S (d_perms d)
    end.
  Proof.
    intros R. pose proof R as (L & Pd & M). unfold d_save_resume. destruct (d_squeezing d) eqn:S.
    - subst m. cbn. apply runs_ret.
    - destruct M as (st & vals & -> & Ls & Lv & Ev). destruct (Nat.eqb_spec (d_pos d) 0) as [E|N].
      + destruct vals; [|cbn in Lv; lia]. cbn. apply runs_ret.
      + destruct (r_permute_absorb vals st d R S) as [Rp Lp]. split; [|split; [|reflexivity]].
        * destruct vals as [|v vals]; [cbn in Lv; lia|]. cbn [map sp_save]. cbn [map] in Rp.
          eapply runs_cost; [eapply runs_bind; [exact Rp|]|apply Nat.add_0_r|apply Nat.add_0_r]. apply runs_ret.
        * unfold sp_resume, d_permute. cbn [d_vec]. apply rep_fresh_squeeze. exact Lp.
  Qed.
  Definition lift_op (o : dop F) : sop F F :=
    match o with DAbsorb x => OAbsorb (e x) | DSqueeze => OSqueeze | DSaveResume => OSaveResume end.
  Lemma run_ok ops : forall m d, rep m d ->
    exists v g c, runs wit (sp_run F F P perm (map lift_op ops) m) v g c /\
      match d_run rate pi ops d with
      | inl er => v = inl er
      | inr (outs, d') => exists m', v = inr (map e outs, m') /\ rep m' d' /\
          (gp * d_perms d' = gp * d_perms d + g)%nat /\ (cp * d_perms d' = cp * d_perms d + c)%nat
      end.
  Proof.
    induction ops as [|[x| |] ops IH]; intros m d R; cbn [map lift_op sp_run d_run].
    - do 3 eexists. split; [apply runs_ret|]. eexists. split; [reflexivity|]. split; [exact R|]. lia.
    - destruct (absorb_ok m d x R) as (m' & R' & g & c & H & Hg & Hc).
      destruct (IH m' _ R') as (v & g' & c' & K & E). exists v, (g + g')%nat, (c + c')%nat.
      split; [now apply (runs_bind F wit) with (v := m')|].
      destruct (d_run rate pi ops (d_absorb rate pi d x)) as [er|[outs d']]; auto.
      destruct E as (m'' & -> & R'' & Eg & Ec). exists m''. split; [auto|]. split; [auto|]. lia.
    - pose proof (squeeze_ok m d R) as Q. destruct (d_squeeze rate pi d) as [er|[x d']].
      + do 3 eexists. split; [eapply runs_bind; [exact Q|apply runs_ret]|reflexivity].
      + destruct Q as (m' & R' & g & c & H & Hg & Hc). destruct (IH m' _ R') as (v & g' & c' & K & E).
        exists (match v with inl er => inl er | inr (vs, m'') => inr (e x :: vs, m'') end), (g + (g' + 0))%nat, (c + (c' + 0))%nat. split.
        * eapply runs_bind; [exact H|]. cbv beta iota. eapply runs_bind; [exact K|]. destruct v as [er|[vs m'']]; apply runs_ret.
        * destruct (d_run rate pi ops d') as [er|[outs d'']]; [now subst|].
          destruct E as (m'' & -> & R'' & Eg & Ec). exists m''. split; [auto|]. split; [auto|]. lia.
    - pose proof (save_ok m d R) as Q. destruct (d_save_resume pi d) as [er|d'].
      + do 3 eexists. split; [eapply runs_bind; [exact Q|apply runs_ret]|reflexivity].
      + destruct Q as (H & R' & Hp). destruct (IH _ _ R') as (v & g' & c' & K & E).
        exists v, (gp + g')%nat, (cp + c')%nat. split; [eapply runs_bind; [exact H|exact K]|].
        destruct (d_run rate pi ops d') as [er|[outs d'']]; auto.
        destruct E as (m'' & -> & R'' & Eg & Ec). exists m''. split; [auto|]. split; [auto|]. rewrite Hp in *. lia.
  Qed.
End Sponge.
