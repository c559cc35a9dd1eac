(** One-shot hashing with the duplex is the textbook block sponge. *)
From Coq Require Import List Arith NArith ZArith Bool Lia Ring Field.
From Verif Require Import FieldDef GadgetModel Runs SpongeModel SpongeSpec SpongeProofs.
Import ListNotations.
Open Scope f_scope.

Section Hash.
  Variable F : Field.
  Add Field FFsh : (f_theory F).
  Variables (rate width : nat) (pi : list F -> list F).
  Hypothesis rate_ok : (1 <= rate <= width)%nat.
  Hypothesis pi_length : forall v, length v = width -> length (pi v) = width.

  Lemma d_run_absorb xs : forall r d, d_run rate pi (map DAbsorb xs ++ r) d = d_run rate pi r (fold_left (d_absorb rate pi) xs d).
  Proof. induction xs as [|x xs IH]; intros r d; cbn; auto. Qed.
  Lemma absorb_block v n b : length v = width -> (length b <= rate)%nat ->
    fold_left (d_absorb rate pi) b (mk_duplex v 0 false n) = mk_duplex (add_block v b) (length b) false n.
  Proof.
    intros L. induction b as [|x b IH] using rev_ind; intros H.
    - cbn. now rewrite add_block_nil.
    - rewrite app_length in H. cbn in H. rewrite fold_left_app, IH by lia. cbn [fold_left]. unfold d_absorb. cbn [d_squeezing d_pos].
      replace (Nat.eqb (length b) rate) with false by (symmetry; apply Nat.eqb_neq; lia).
      unfold d_put. cbn [d_vec d_pos d_perms]. rewrite add_block_snoc by lia. rewrite app_length. cbn [length]. f_equal. lia.
  Qed.
  Lemma absorb_full_block v n b : length v = width -> (1 <= length b <= rate)%nat ->
    fold_left (d_absorb rate pi) b (mk_duplex v rate false n) = mk_duplex (add_block (pi v) b) (length b) false (S n).
  Proof.
    intros L H. rewrite <- absorb_block by (auto; lia). destruct b as [|x b]; [cbn in H; lia|]. cbn [fold_left].
    f_equal. unfold d_absorb. cbn [d_squeezing d_pos]. rewrite Nat.eqb_refl.
    replace (Nat.eqb 0 rate) with false by (symmetry; apply Nat.eqb_neq; lia). reflexivity.
  Qed.
  Lemma absorb_blocks_from full : forall last v n, length v = width -> Forall (fun b => length b = rate) full ->
    (1 <= length last <= rate)%nat ->
    fold_left (d_absorb rate pi) (concat (full ++ [last])) (mk_duplex v 0 false n)
    = mk_duplex (add_block (absorb_blocks pi full v) last) (length last) false (n + length full) /\
    fold_left (d_absorb rate pi) (concat (full ++ [last])) (mk_duplex v rate false n)
    = mk_duplex (add_block (absorb_blocks pi full (pi v)) last) (length last) false (S n + length full).
  Proof.
    induction full as [|b full IH]; intros last v n L Fu Hl.
    - cbn [app concat]. rewrite app_nil_r, Nat.add_0_r. cbn [absorb_blocks fold_left length]. split.
      + rewrite absorb_block by (auto; lia). reflexivity.
      + rewrite absorb_full_block by (auto; lia). cbn. f_equal. lia.
    - assert (Lb : length b = rate) by now inversion Fu. assert (Fu' : Forall (fun b => length b = rate) full) by now inversion Fu.
      cbn [app concat]. rewrite !fold_left_app.
      rewrite absorb_block, absorb_full_block by (auto; lia). rewrite Lb. cbn [length absorb_blocks fold_left].
      split.
      + rewrite (proj2 (IH last (add_block v b) n ltac:(now rewrite add_block_length) Fu' Hl)). f_equal. lia.
      + rewrite (proj2 (IH last (add_block (pi v) b) (S n) ltac:(rewrite add_block_length; auto) Fu' Hl)). f_equal. lia.
  Qed.
  Lemma squeezes v m : forall q p n, (p <= rate)%nat ->
    exists d', d_run rate pi (repeat DSqueeze m) (mk_duplex (Nat.iter q pi v) p true n)
      = inr (map (fun i => nth (i mod rate) (Nat.iter (i / rate) pi v) 0) (seq (q * rate + p) m), d').
  Proof.
    induction m as [|m IH]; intros q p n Hp; [cbn; eauto|].
    cbn [repeat d_run]. unfold d_squeeze. cbn [d_squeezing d_pos]. destruct (Nat.eqb_spec p rate) as [->|N].
    - unfold d_permute, d_get. cbn [d_vec d_pos d_perms].
      destruct (IH (S q) 1%nat (S n)) as (d' & E); [lia|].
      change (pi (Nat.iter q pi v)) with (Nat.iter (S q) pi v). rewrite E. exists d'. cbn [seq map]. do 2 f_equal. f_equal.
      + replace (q * rate + rate)%nat with (0 + S q * rate)%nat by lia. rewrite Nat.mod_add, Nat.div_add by lia.
        rewrite Nat.mod_small, Nat.div_small by lia. reflexivity.
      + f_equal. f_equal. lia.
    - unfold d_get. cbn [d_vec d_pos d_perms]. destruct (IH q (S p) n) as (d' & E); [lia|]. rewrite E. exists d'.
      cbn [seq map]. do 2 f_equal. f_equal.
      + replace (q * rate + p)%nat with (p + q * rate)%nat by lia. rewrite Nat.mod_add, Nat.div_add by lia.
        rewrite Nat.mod_small, Nat.div_small by lia. reflexivity.
      + f_equal. f_equal. lia.
  Qed.
  Lemma hash_ok full last m : Forall (fun b => length b = rate) full -> (1 <= length last <= rate)%nat ->
    exists d', d_run rate pi (map DAbsorb (concat (full ++ [last])) ++ repeat DSqueeze m) (d_new width)
      = inr (map (hash_out rate width pi (full ++ [last])) (seq 0 m), d').
  Proof.
    intros Fu Hl. rewrite d_run_absorb. unfold d_new. rewrite (proj1 (absorb_blocks_from full last (repeat 0 width) 0 (repeat_length _ _) Fu Hl)).
    destruct m as [|m]; [cbn; eauto|]. cbn [repeat d_run]. unfold d_squeeze. cbn [d_squeezing d_pos].
    replace (Nat.eqb (length last) 0) with false by (symmetry; apply Nat.eqb_neq; lia).
    unfold d_permute, d_get. cbn [d_vec d_pos d_perms].
    assert (E : pi (add_block (absorb_blocks pi full (repeat 0 width)) last) = absorb_blocks pi (full ++ [last]) (repeat 0 width)).
    { unfold absorb_blocks. rewrite fold_left_app. reflexivity. }
    rewrite E. set (v := absorb_blocks pi (full ++ [last]) (repeat 0 width)).
    destruct (squeezes v m 0 1 (S (0 + length full))) as (d' & S); [lia|]. change (Nat.iter 0 pi v) with v in S. rewrite S. exists d'.
    cbn [seq map]. do 2 f_equal. f_equal.
    unfold hash_out. rewrite Nat.mod_small, Nat.div_small by lia. reflexivity.
  Qed.
  (** every non-empty input is cut into blocks in exactly this way *)
  Lemma blocks_exist (xs : list F) : xs <> [] -> exists full last,
    xs = concat (full ++ [last]) /\ Forall (fun b => length b = rate) full /\ (1 <= length last <= rate)%nat.
  Proof.
    assert (H : forall n (xs : list F), (length xs <= n)%nat -> xs <> [] -> exists full last,
      xs = concat (full ++ [last]) /\ Forall (fun b => length b = rate) full /\ (1 <= length last <= rate)%nat).
    { induction n as [|n IH]; intros ys L N.
      - destruct ys; [congruence|cbn in L; lia].
      - destruct (Nat.le_gt_cases (length ys) rate) as [S|B].
        + exists [], ys. cbn. rewrite app_nil_r. split; [auto|]. split; [constructor|]. destruct ys; [congruence|cbn in *; lia].
        + destruct (IH (skipn rate ys)) as (full & last & E & Fu & Hl).
          * rewrite skipn_length. lia.
          * intros K. apply (f_equal (@length F)) in K. rewrite skipn_length in K. cbn in K. lia.
          * exists (firstn rate ys :: full), last. cbn [app concat]. rewrite <- E, firstn_skipn. split; [auto|]. split; [|auto].
            constructor; auto. rewrite firstn_length. lia. }
    intros N. now apply (H (length xs)).
  Qed.
  Lemma add_block_zero (v b : list F) : add_block v (b ++ [0]) = add_block v b.
  Proof.
    apply map_ext. intros i. f_equal. destruct (Nat.lt_ge_cases i (length b)).
    - now rewrite app_nth1.
    - rewrite app_nth2 by lia. rewrite (nth_overflow b) by lia. destruct (i - length b)%nat as [|[|]]; reflexivity.
  Qed.
  Lemma hash_zero full last i : hash_out rate width pi (full ++ [last ++ [0]]) i = hash_out rate width pi (full ++ [last]) i.
  Proof. unfold hash_out, absorb_blocks. rewrite !fold_left_app. cbn [fold_left]. now rewrite add_block_zero. Qed.
End Hash.

(** ** transcript tags *)
Section Tags.
  Variable F : Field.
  Variable of_u : N -> F.
  Hypothesis of_u_inj : forall a b, (a < 2 ^ 128)%N -> (b < 2 ^ 128)%N -> of_u a = of_u b -> a = b.
  Notation bytes_ok := (Forall (fun b => (b < 256)%N)).
  Lemma le_value_lt l : bytes_ok l -> (le_value l < 256 ^ N.of_nat (length l))%N.
  Proof.
    intros H. induction H as [|b l Hb H IH]; [cbn; lia|]. cbn [le_value length]. rewrite Nat2N.inj_succ, N.pow_succ_r'. nia.
  Qed.
  Lemma le_value_inj l : forall l', length l = length l' -> bytes_ok l -> bytes_ok l' -> le_value l = le_value l' -> l = l'.
  Proof.
    induction l as [|b l IH]; intros [|b' l'] L H H' E; try discriminate; auto.
    inversion H; inversion H'; subst. cbn [le_value] in E.
    assert (b = b' /\ le_value l = le_value l') as [-> E2].
    { split; [|lia]. apply (f_equal (fun x => x mod 256)%N) in E.
      rewrite !(N.mul_comm 256), !N.mod_add, !N.mod_small in E by lia. exact E. }
    f_equal. apply IH; auto.
  Qed.
  Lemma chunks_length fuel : forall tag, (length tag <= fuel)%nat -> length (chunks16 fuel tag) = ((length tag + 15) / 16)%nat.
  Proof.
    induction fuel as [|fuel IH]; intros tag L.
    - destruct tag; [reflexivity|cbn in L; lia].
    - destruct tag as [|b tag]; [reflexivity|]. cbn [chunks16]. set (t := b :: tag) in *. cbn [length]. 
      assert (length t > 0)%nat by (cbn; lia). rewrite IH by (rewrite skipn_length; lia). rewrite skipn_length.
      destruct (Nat.le_gt_cases (length t) 16).
      + replace (length t - 16)%nat with 0%nat by lia. change ((0 + 15) / 16)%nat with 0%nat.
        replace (length t + 15)%nat with (length t - 1 + 1 * 16)%nat by lia. rewrite Nat.div_add by lia.
        rewrite Nat.div_small by lia. lia.
      + replace (length t + 15)%nat with (length t - 16 + 15 + 1 * 16)%nat by lia. rewrite Nat.div_add by lia. lia.
  Qed.
  Lemma chunks_differ fuel : forall t t', length t = length t' -> (length t <= fuel)%nat -> bytes_ok t -> bytes_ok t' -> t <> t' ->
    exists i, (i < (length t + 15) / 16)%nat /\
      nth i (map (fun c => of_u (le_value c)) (chunks16 fuel t)) 0 <> nth i (map (fun c => of_u (le_value c)) (chunks16 fuel t')) 0.
  Proof.
    induction fuel as [|fuel IH]; intros t t' L B O O' NE.
    - destruct t, t'; cbn in *; try lia; congruence.
    - destruct t as [|b t], t' as [|b' t']; try discriminate; [congruence|].
      cbn [chunks16 map]. set (u := b :: t) in *. set (u' := b' :: t') in *.
      assert (K : length u > 0) by (cbn; lia).
      assert (FS : forall l : list N, bytes_ok l -> bytes_ok (firstn 16 l) /\ bytes_ok (skipn 16 l)).
      { intros l Hl. rewrite <- (firstn_skipn 16 l) in Hl. now apply Forall_app in Hl. }
      assert (D : firstn 16 u = firstn 16 u' \/ firstn 16 u <> firstn 16 u').
      { destruct (list_eq_dec N.eq_dec (firstn 16 u) (firstn 16 u')); auto. }
      destruct D as [E|D].
      + destruct (IH (skipn 16 u) (skipn 16 u')) as (i & Hi & D).
        * rewrite !skipn_length. lia.
        * rewrite skipn_length. lia.
        * now apply FS.
        * now apply FS.
        * intros E2. apply NE. rewrite <- (firstn_skipn 16 u), <- (firstn_skipn 16 u'). congruence.
        * exists (S i). split; [|exact D]. rewrite skipn_length in Hi.
          destruct (Nat.le_gt_cases (length u) 16).
          -- replace (length u - 16)%nat with 0%nat in Hi by lia. cbn in Hi. lia.
          -- replace (length u + 15)%nat with (length u - 16 + 15 + 1 * 16)%nat by lia. rewrite Nat.div_add by lia. lia.
      + exists 0%nat. split.
        * apply Nat.div_str_pos. lia.
        * cbn [nth]. intros E. apply D. apply of_u_inj in E.
          -- apply le_value_inj in E; auto; [|apply FS; auto|apply FS; auto]. rewrite !firstn_length. lia.
          -- eapply N.lt_le_trans; [apply le_value_lt, FS; auto|]. change (2 ^ 128)%N with (256 ^ 16)%N.
             apply N.pow_le_mono_r; [lia|]. rewrite firstn_length. lia.
          -- eapply N.lt_le_trans; [apply le_value_lt, FS; auto|]. change (2 ^ 128)%N with (256 ^ 16)%N.
             apply N.pow_le_mono_r; [lia|]. rewrite firstn_length. lia.
  Qed.
  Lemma tags_differ t t' s s' : bytes_ok t -> bytes_ok t' -> (N.of_nat (length t) < 2 ^ 64)%N -> (N.of_nat (length t') < 2 ^ 64)%N ->
    t <> t' -> exists i, (i < length (tag_values F of_u t))%nat /\ (i < length (tag_values F of_u t'))%nat /\
      nth i (tag_values F of_u t ++ s) 0 <> nth i (tag_values F of_u t' ++ s') 0.
  Proof.
    intros O O' B B' NE. unfold tag_values. destruct (Nat.eq_dec (length t) (length t')) as [E|D].
    - destruct (chunks_differ (length t) t t' E (le_n _) O O' NE) as (i & Hi & D). exists (S i). rewrite <- E.
      cbn [length app nth]. rewrite !map_length, !chunks_length by lia. rewrite <- E. split; [lia|]. split; [lia|].
      rewrite !app_nth1; auto; rewrite map_length, chunks_length by lia; rewrite <- ?E; lia.
    - exists 0%nat. cbn [length app nth]. split; [lia|]. split; [lia|]. intros E. apply D. apply of_u_inj in E; lia.
  Qed.
End Tags.
