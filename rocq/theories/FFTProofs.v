From Coq Require Import List Arith NArith ZArith Bool Lia Ring Field.
From Verif Require Import FieldDef ModDef ArithModel ArithProofs FFTModel.
Import ListNotations.

(** * Bit reversal *)
Lemma revb_testbit w : forall n i,
  N.testbit (revb w n) (N.of_nat i) = if (i <? w)%nat then N.testbit n (N.of_nat (w - 1 - i)) else false.
Proof.
  induction w as [|w IH]; intros n i; cbn [revb].
  - rewrite N.bits_0. reflexivity.
  - assert (Hlow : (revb w (N.div2 n) < 2 ^ N.of_nat w)%N).
    { clear -w. generalize (N.div2 n). induction w as [|w IH]; intros m; cbn [revb]; [reflexivity|].
      specialize (IH (N.div2 m)). rewrite Nat2N.inj_succ, N.pow_succ_r'. destruct (N.odd m); lia. }
    assert (Hsum : ((if N.odd n then 2 ^ N.of_nat w else 0) + revb w (N.div2 n)
             = N.lor (if N.odd n then 2 ^ N.of_nat w else 0) (revb w (N.div2 n)))%N).
    { destruct (N.odd n); [|rewrite N.lor_0_l; reflexivity].
      assert (D : N.land (2 ^ N.of_nat w) (revb w (N.div2 n)) = 0%N).
      { apply N.bits_inj. intros j. rewrite N.land_spec, N.bits_0, N.pow2_bits_eqb.
        destruct (N.eqb_spec (N.of_nat w) j) as [<-|]; [|reflexivity].
        rewrite <- (N.mod_small _ _ Hlow), N.mod_pow2_bits_high by lia. reflexivity. }
      rewrite <- N.lxor_lor by exact D. rewrite <- N.add_nocarry_lxor by exact D. reflexivity. }
    rewrite Hsum, N.lor_spec, IH.
    assert (H1 : N.testbit (if N.odd n then 2 ^ N.of_nat w else 0) (N.of_nat i)
                 = (Nat.eqb i w && N.odd n)%bool).
    { destruct (N.odd n).
      - rewrite N.pow2_bits_eqb. destruct (Nat.eqb_spec i w); destruct (N.eqb_spec (N.of_nat w) (N.of_nat i)); try reflexivity; try lia.
      - rewrite N.bits_0, andb_false_r. reflexivity. }
    rewrite H1. destruct (Nat.eqb_spec i w) as [->|Hne].
    + rewrite Nat.ltb_irrefl. destruct (Nat.ltb_spec w (S w)); [|lia].
      replace (S w - 1 - w)%nat with 0%nat by lia. cbn [N.of_nat].
      rewrite N.bit0_odd. cbn. rewrite orb_false_r. reflexivity.
    + cbn [andb orb]. destruct (Nat.ltb_spec i w); destruct (Nat.ltb_spec i (S w)); try (exfalso; lia); [|reflexivity].
      replace (N.of_nat (S w - 1 - i)) with (N.succ (N.of_nat (w - 1 - i))) by lia.
      rewrite N.div2_spec, N.shiftr_spec by lia. f_equal. lia.
Qed.

Lemma bitreverse_testbit n l i : (l <= 32)%nat ->
  N.testbit (bitreverse n (N.of_nat l)) (N.of_nat i)
  = if (i <? l)%nat then N.testbit n (N.of_nat (l - 1 - i)) else false.
Proof.
  intros Hl. unfold bitreverse. destruct (N.eqb_spec (N.of_nat l) 0) as [E|E].
  - rewrite N.bits_0. destruct (Nat.ltb_spec i l); [lia|reflexivity].
  - rewrite N.shiftr_spec by lia.
    replace (N.of_nat i + (32 - N.of_nat l))%N with (N.of_nat (i + (32 - l))) by lia.
    rewrite revb_testbit.
    destruct (Nat.ltb_spec (i + (32 - l)) 32); destruct (Nat.ltb_spec i l); try (exfalso; lia); [|reflexivity].
    f_equal. lia.
Qed.

Lemma N_bits_inj_nat (a b : N) : (forall i : nat, N.testbit a (N.of_nat i) = N.testbit b (N.of_nat i)) -> a = b.
Proof. intros H. apply N.bits_inj. intros i. rewrite <- (N2Nat.id i). apply H. Qed.

Lemma testbit_above (n : N) (l i : nat) : (n < 2 ^ N.of_nat l)%N -> (l <= i)%nat ->
  N.testbit n (N.of_nat i) = false.
Proof.
  intros Hn Hi. rewrite <- (N.mod_small _ _ Hn), N.mod_pow2_bits_high by lia. reflexivity.
Qed.

Lemma bits_lt (n : N) (l : nat) : (forall i, (l <= i)%nat -> N.testbit n (N.of_nat i) = false) ->
  (n < 2 ^ N.of_nat l)%N.
Proof.
  intros H. assert (E : n = (n mod 2 ^ N.of_nat l)%N).
  { apply N_bits_inj_nat. intros i. destruct (Nat.lt_ge_cases i l) as [Hi|Hi].
    - rewrite N.mod_pow2_bits_low by lia. reflexivity.
    - rewrite N.mod_pow2_bits_high by lia. apply H; exact Hi. }
  rewrite E. apply N.mod_lt. apply N.pow_nonzero. lia.
Qed.

Lemma bitreverse_lt n l : (l <= 32)%nat -> (bitreverse n (N.of_nat l) < 2 ^ N.of_nat l)%N.
Proof.
  intros Hl. apply bits_lt. intros i Hi. rewrite bitreverse_testbit by exact Hl.
  destruct (Nat.ltb_spec i l); [lia|reflexivity].
Qed.

Lemma bitreverse_invol n l : (l <= 32)%nat -> (n < 2 ^ N.of_nat l)%N ->
  bitreverse (bitreverse n (N.of_nat l)) (N.of_nat l) = n.
Proof.
  intros Hl Hn. apply N_bits_inj_nat. intros i. rewrite !bitreverse_testbit by exact Hl.
  destruct (Nat.ltb_spec i l).
  - destruct (Nat.ltb_spec (l - 1 - i) l); [|lia].
    f_equal. lia.
  - symmetry. apply (testbit_above n l); assumption.
Qed.

Lemma pow2_nat_N l : N.of_nat (2 ^ l) = (2 ^ N.of_nat l)%N.
Proof.
  induction l as [|l IH]; [reflexivity|].
  rewrite Nat2N.inj_succ, N.pow_succ_r', Nat.pow_succ_r', Nat2N.inj_mul, IH. reflexivity.
Qed.

Lemma bitrev_lt k l : (l <= 32)%nat -> (bitrev k l < 2 ^ l)%nat.
Proof.
  intros Hl. unfold bitrev. pose proof (bitreverse_lt (N.of_nat k) l Hl) as H.
  rewrite <- pow2_nat_N in H. lia.
Qed.

Lemma bitrev_invol k l : (l <= 32)%nat -> (k < 2 ^ l)%nat -> bitrev (bitrev k l) l = k.
Proof.
  intros Hl Hk. unfold bitrev. rewrite N2Nat.id, bitreverse_invol; [lia|exact Hl|].
  rewrite <- pow2_nat_N. lia.
Qed.

Lemma bitrev_low j l : (S l <= 32)%nat -> (j < 2 ^ l)%nat -> bitrev j (S l) = (2 * bitrev j l)%nat.
Proof.
  intros Hl Hj. unfold bitrev.
  assert (E : bitreverse (N.of_nat j) (N.of_nat (S l)) = (2 * bitreverse (N.of_nat j) (N.of_nat l))%N).
  { apply N_bits_inj_nat. intros i. rewrite bitreverse_testbit by exact Hl.
    destruct i as [|i].
    - rewrite N.testbit_even_0. destruct (Nat.ltb_spec 0 (S l)); [|reflexivity].
      apply (testbit_above _ l); [rewrite <- pow2_nat_N; lia|lia].
    - replace (N.of_nat (S i)) with (N.succ (N.of_nat i)) by lia.
      rewrite N.testbit_even_succ by lia. rewrite bitreverse_testbit by lia.
      destruct (Nat.ltb_spec (S i) (S l)); destruct (Nat.ltb_spec i l); try (exfalso; lia); [|reflexivity].
      f_equal. lia. }
  rewrite E. lia.
Qed.

Lemma bitrev_high j l : (S l <= 32)%nat -> (j < 2 ^ l)%nat ->
  bitrev (2 ^ l + j) (S l) = (2 * bitrev j l + 1)%nat.
Proof.
  intros Hl Hj. unfold bitrev.
  assert (Hjb : (N.of_nat j < 2 ^ N.of_nat l)%N) by (rewrite <- pow2_nat_N; lia).
  assert (Elor : (N.of_nat (2 ^ l + j) = N.lor (2 ^ N.of_nat l) (N.of_nat j))%N).
  { rewrite Nat2N.inj_add, pow2_nat_N.
    assert (D : N.land (2 ^ N.of_nat l) (N.of_nat j) = 0%N).
    { apply N.bits_inj. intros i. rewrite N.land_spec, N.bits_0, N.pow2_bits_eqb.
      destruct (N.eqb_spec (N.of_nat l) i) as [<-|]; [|reflexivity].
      rewrite (testbit_above _ l l Hjb) by lia. reflexivity. }
    rewrite <- N.lxor_lor by exact D. rewrite <- N.add_nocarry_lxor by exact D. reflexivity. }
  assert (E : bitreverse (N.of_nat (2 ^ l + j)) (N.of_nat (S l))
              = (2 * bitreverse (N.of_nat j) (N.of_nat l) + 1)%N).
  { apply N_bits_inj_nat. intros i. rewrite bitreverse_testbit by exact Hl. rewrite Elor.
    destruct i as [|i].
    - rewrite N.testbit_odd_0. destruct (Nat.ltb_spec 0 (S l)); [|lia].
      rewrite N.lor_spec, N.pow2_bits_eqb. replace (S l - 1 - 0)%nat with l by lia.
      rewrite N.eqb_refl. reflexivity.
    - replace (N.of_nat (S i)) with (N.succ (N.of_nat i)) by lia.
      rewrite N.testbit_odd_succ by lia. rewrite bitreverse_testbit by lia.
      destruct (Nat.ltb_spec (S i) (S l)); destruct (Nat.ltb_spec i l); try (exfalso; lia); [|reflexivity].
      rewrite N.lor_spec, N.pow2_bits_eqb.
      destruct (N.eqb_spec (N.of_nat l) (N.of_nat (S l - 1 - S i))); [lia|].
      cbn [orb]. f_equal. lia. }
  rewrite E. lia.
Qed.

(** * Slices *)
Section Arr.
  Variable A : Type.
  Lemma upd_length (l : list A) i v : length (upd l i v) = length l.
  Proof. revert i. induction l as [|a l IH]; intros [|i]; cbn; auto. Qed.

  Lemma nth_error_upd (l : list A) i v j :
    nth_error (upd l i v) j
    = if Nat.eqb i j then (if Nat.ltb i (length l) then Some v else None) else nth_error l j.
  Proof.
    revert i j. induction l as [|a l IH]; intros i j.
    - cbn [upd length]. destruct (Nat.eqb_spec i j); destruct j; reflexivity.
    - destruct i as [|i], j as [|j]; cbn [upd nth_error length]; try reflexivity.
      rewrite IH. cbn [Nat.eqb]. destruct (Nat.eqb_spec i j); [|reflexivity].
      destruct (Nat.ltb_spec i (length l)), (Nat.ltb_spec (S i) (S (length l))); auto; lia.
  Qed.

  Lemma swap_length (l : list A) i j : length (swap l i j) = length l.
  Proof.
    unfold swap. destruct (nth_error l i); [|reflexivity].
    destruct (nth_error l j); [|reflexivity]. rewrite !upd_length. reflexivity.
  Qed.

  Lemma nth_error_swap (l : list A) i j k : (i < length l)%nat -> (j < length l)%nat ->
    nth_error (swap l i j) k
    = if Nat.eqb j k then nth_error l i else if Nat.eqb i k then nth_error l j else nth_error l k.
  Proof.
    intros Hi Hj. unfold swap.
    destruct (nth_error l i) as [a|] eqn:Ea; [|apply nth_error_None in Ea; lia].
    destruct (nth_error l j) as [b|] eqn:Eb; [|apply nth_error_None in Eb; lia].
    rewrite !nth_error_upd, upd_length.
    destruct (Nat.ltb_spec j (length l)); [|lia]. destruct (Nat.ltb_spec i (length l)); [|lia].
    destruct (Nat.eqb_spec j k); [reflexivity|]. destruct (Nat.eqb_spec i k); [reflexivity|reflexivity].
  Qed.

  Lemma list_ext (l1 l2 : list A) : (forall i, nth_error l1 i = nth_error l2 i) -> l1 = l2.
  Proof.
    revert l2. induction l1 as [|a l1 IH]; intros [|b l2] H; [reflexivity| | |].
    - specialize (H 0%nat). discriminate.
    - specialize (H 0%nat). discriminate.
    - f_equal; [specialize (H 0%nat); cbn in H; congruence|]. apply IH. intros i. apply (H (S i)).
  Qed.
End Arr.

Section FFTP.
  Variable F : Field.
  Variable M : FMod F.
  Add Field FFf : (f_theory F).

  (** the swap loop realises the permutation *)
  Lemma bitrev_loop_ok (a : list M) l : (l <= 32)%nat -> length a = (2 ^ l)%nat ->
    length (bitrev_loop a l) = length a /\
    forall i, (i < length a)%nat -> nth_error (bitrev_loop a l) i = nth_error a (bitrev i l).
  Proof.
    intros Hl Ha. unfold bitrev_loop.
    set (step := fun a k => let rk := bitrev k l in if (k <? rk)%nat then swap a rk k else a).
    assert (Inv : forall K, (K <= length a)%nat ->
      let r := fold_left step (seq 0 K) a in
      length r = length a /\
      forall i, (i < length a)%nat ->
        nth_error r i = if ((i <? K) || (bitrev i l <? K))%nat%bool then nth_error a (bitrev i l) else nth_error a i).
    { induction K as [|K IH]; intros HK.
      - cbn. split; [reflexivity|]. intros i Hi. reflexivity.
      - rewrite seq_S, fold_left_app. cbn [fold_left plus Nat.add].
        destruct IH as [IHl IH]; [lia|]. cbn zeta in *.
        set (r := fold_left step (seq 0 K) a) in *. unfold step. cbn zeta.
        pose proof (bitrev_lt K l Hl) as HrK.
        pose proof (bitrev_invol K l Hl ltac:(lia)) as HiK.
        destruct (Nat.ltb_spec K (bitrev K l)) as [Hlt|Hge].
        + split; [rewrite swap_length; exact IHl|]. intros i Hi.
          rewrite nth_error_swap by lia.
          pose proof (bitrev_invol i l Hl ltac:(lia)) as Hii.
          destruct (Nat.eqb_spec K i) as [<-|N1].
          * rewrite IH by lia. rewrite HiK.
            destruct (Nat.ltb_spec (bitrev K l) K); [lia|]. rewrite Nat.ltb_irrefl. cbn [orb].
            destruct (Nat.ltb_spec K (S K)); [|lia]. reflexivity.
          * destruct (Nat.eqb_spec (bitrev K l) i) as [<-|N2].
            -- rewrite IH by lia. rewrite Nat.ltb_irrefl.
               destruct (Nat.ltb_spec (bitrev K l) K); [lia|]. cbn [orb].
               rewrite HiK. destruct (Nat.ltb_spec K (S K)); [|lia]. rewrite orb_true_r. reflexivity.
            -- rewrite IH by exact Hi.
               assert (bitrev i l <> K) by (intros E; apply N2; rewrite <- E; exact Hii).
               destruct (Nat.ltb_spec i K), (Nat.ltb_spec i (S K)); try lia; cbn [orb]; [reflexivity|].
               destruct (Nat.ltb_spec (bitrev i l) K), (Nat.ltb_spec (bitrev i l) (S K)); try lia; reflexivity.
        + split; [exact IHl|]. intros i Hi. rewrite IH by exact Hi.
          pose proof (bitrev_invol i l Hl ltac:(lia)) as Hii.
          destruct (Nat.eq_dec i K) as [->|N1].
          * destruct (Nat.ltb_spec K K), (Nat.ltb_spec K (S K)); try lia. cbn [orb].
            destruct (Nat.ltb_spec (bitrev K l) K); [reflexivity|].
            replace (bitrev K l) with K by lia. reflexivity.
          * destruct (Nat.ltb_spec i K), (Nat.ltb_spec i (S K)); try lia; cbn [orb]; [reflexivity|].
            destruct (Nat.ltb_spec (bitrev i l) K), (Nat.ltb_spec (bitrev i l) (S K)); try lia; try reflexivity.
            exfalso. assert (E : bitrev i l = K) by lia. rewrite E in Hii. lia. }
    destruct (Inv (length a) (Nat.le_refl _)) as [L E]. split; [exact L|].
    intros i Hi. rewrite E by exact Hi. destruct (Nat.ltb_spec i (length a)); [reflexivity|lia].
  Qed.

  (** twiddles *)
  Lemma twiddles_go_nth omega n : forall (w : F) i, (i < n)%nat ->
    nth i (twiddles_go omega w n) f0 = fmul w (fpow omega i).
  Proof.
    induction n as [|n IH]; intros w i Hi; [lia|]. cbn [twiddles_go].
    destruct i as [|i]; cbn [nth fpow]; [ring|]. rewrite IH by lia. ring.
  Qed.

  Lemma twiddles_nth (omega : F) n i : (i < n / 2)%nat ->
    nth i (twiddles omega n) f0 = fpow omega i.
  Proof. intros H. unfold twiddles. rewrite twiddles_go_nth by exact H. ring. Qed.

  (** butterflies *)
  Lemma bfly_tail_ok (tw : list F) tc : forall (l r : list M) i, length l = length r ->
    let '(x, y) := bfly_tail tw tc i l r in
    length x = length l /\ length y = length l /\
    forall j, (j < length l)%nat ->
      nth j x m0 = madd (nth j l m0) (mscale (nth ((i + 1 + j) * tc) tw f0) (nth j r m0)) /\
      nth j y m0 = msub (nth j l m0) (mscale (nth ((i + 1 + j) * tc) tw f0) (nth j r m0)).
  Proof.
    induction l as [|a l IH]; intros [|b r] i H; try discriminate; cbn [bfly_tail].
    - repeat split; try reflexivity; cbn in *; lia.
    - specialize (IH r (i + 1)%nat ltac:(cbn in H; lia)).
      destruct (bfly_tail tw tc (i + 1) l r) as [x y]. destruct IH as (L1 & L2 & E).
      cbn [length]. repeat split; try lia.
      + intros. destruct j as [|j]; cbn [nth].
        * rewrite Nat.add_0_r. reflexivity.
        * destruct (E j ltac:(cbn in *; lia)) as [-> _].
          replace (i + 1 + 1 + j)%nat with (i + 1 + S j)%nat by lia. reflexivity.
      + intros. destruct j as [|j]; cbn [nth].
        * rewrite Nat.add_0_r. reflexivity.
        * destruct (E j ltac:(cbn in *; lia)) as [_ ->].
          replace (i + 1 + 1 + j)%nat with (i + 1 + S j)%nat by lia. reflexivity.
  Qed.

  Lemma bfly_ok (tw : list F) tc (l r : list M) (w : F) h :
    length l = h -> length r = h -> (0 < h)%nat ->
    (forall i, (0 < i < h)%nat -> nth (i * tc) tw f0 = fpow w i) ->
    length (bfly tw tc l r) = (2 * h)%nat /\
    (forall i, (i < h)%nat ->
       nth i (bfly tw tc l r) m0 = madd (nth i l m0) (mscale (fpow w i) (nth i r m0)) /\
       nth (h + i) (bfly tw tc l r) m0 = madd (nth i l m0) (mscale (fopp (fpow w i)) (nth i r m0))).
  Proof.
    intros Hl Hr Hh Htw. destruct l as [|a l]; [cbn in Hl; lia|]. destruct r as [|b r]; [cbn in Hr; lia|].
    cbn [bfly]. pose proof (bfly_tail_ok tw tc l r 0 ltac:(cbn in *; lia)) as T.
    destruct (bfly_tail tw tc 0 l r) as [x y]. destruct T as (L1 & L2 & E). cbn [length] in *.
    split; [rewrite app_length; cbn [length]; lia|].
    intros i Hi. split.
    - rewrite app_nth1 by (cbn [length]; lia). destruct i as [|i]; cbn [nth].
      + cbn [fpow]. rewrite mscale_1. reflexivity.
      + destruct (E i ltac:(lia)) as [-> _]. cbn [plus Nat.add]. rewrite Htw by lia. reflexivity.
    - rewrite app_nth2 by (cbn [length]; lia). cbn [length].
      replace (h + i - S (length x))%nat with i by lia. destruct i as [|i]; cbn [nth].
      + cbn [fpow]. rewrite msub_def. reflexivity.
      + destruct (E i ltac:(lia)) as [_ ->]. cbn [plus Nat.add]. rewrite Htw by lia.
        rewrite msub_scale. reflexivity.
  Qed.

  Definition dft (w : F) (n : nat) (a : nat -> M) (k : nat) : M :=
    msum n (fun j => mscale (fpow w (j * k)) (a j)).

  (** radix-2 step *)
  Lemma dft_split w n (a : nat -> M) k :
    dft w (2 * n) a k
    = madd (dft (sqr w) n (fun j => a (2 * j)%nat) k)
           (mscale (fpow w k) (dft (sqr w) n (fun j => a (2 * j + 1)%nat) k)).
  Proof.
    unfold dft. rewrite msum_even_odd, <- msum_scale. f_equal.
    - apply msum_ext. intros i _. f_equal. unfold sqr.
      replace (fmul w w) with (fpow w 2) by (cbn; ring). rewrite <- fpow_mul. f_equal. lia.
    - apply msum_ext. intros i _. rewrite mscale_mul. f_equal. unfold sqr.
      replace (fmul w w) with (fpow w 2) by (cbn; ring).
      rewrite <- fpow_mul, <- fpow_add. f_equal. lia.
  Qed.

  Lemma dft_period w n (a : nat -> M) k : fpow w n = f1 -> dft w n a (n + k) = dft w n a k.
  Proof.
    intros H. unfold dft. apply msum_ext. intros j _. f_equal.
    replace (j * (n + k))%nat with (n * j + j * k)%nat by lia.
    rewrite fpow_add, fpow_mul, H, fpow_one. ring.
  Qed.

  Lemma nth_firstn_lt {A} (l : list A) n i d : (i < n)%nat -> nth i (firstn n l) d = nth i l d.
  Proof.
    revert n i. induction l as [|a l IH]; intros n i H; [rewrite firstn_nil; reflexivity|].
    destruct n as [|n]; [lia|]. destruct i as [|i]; cbn; [reflexivity|apply IH; lia].
  Qed.

  Lemma nth_skipn_add {A} (l : list A) n i d : nth i (skipn n l) d = nth (n + i) l d.
  Proof.
    revert n. induction l as [|a l IH]; intros n; [rewrite skipn_nil; destruct i, (n + 0)%nat; destruct n; reflexivity|].
    destruct n as [|n]; cbn [skipn plus Nat.add nth]; [reflexivity|apply IH].
  Qed.

  Lemma rec_bfly_ok k : forall (w : F) (tw : list F) tc (a' : list M) (a : nat -> M),
    (1 <= k <= 32)%nat -> length a' = (2 ^ k)%nat ->
    (forall j, (j < 2 ^ k)%nat -> nth j a' m0 = a (bitrev j k)) ->
    (forall i, (0 < i < 2 ^ (k - 1))%nat -> nth (i * tc) tw f0 = fpow w i) ->
    fpow w (2 ^ (k - 1)) = fopp f1 ->
    length (rec_bfly k tw tc a') = (2 ^ k)%nat /\
    forall i, (i < 2 ^ k)%nat -> nth i (rec_bfly k tw tc a') m0 = dft w (2 ^ k) a i.
  Proof.
    induction k as [|k IH]; intros w tw tc a' a Hk Hlen Ha Htw Hw; [lia|].
    destruct k as [|k].
    - cbn [rec_bfly]. change (2 ^ 1)%nat with 2%nat in *.
      destruct a' as [|x [|y [|]]]; cbn in Hlen; try lia.
      split; [reflexivity|]. change (2 ^ (1 - 1))%nat with 1%nat in Hw.
      rewrite fpow_1 in Hw.
      pose proof (Ha 0%nat ltac:(lia)) as A0. pose proof (Ha 1%nat ltac:(lia)) as A1.
      change (bitrev 0 1) with 0%nat in A0. change (bitrev 1 1) with 1%nat in A1. cbn [nth] in A0, A1.
      intros i Hi. unfold dft. destruct i as [|[|]]; [| |lia]; cbn [nth msum];
        rewrite <- A0, <- A1, madd_0.
      + cbn [Nat.mul fpow]. rewrite !mscale_1. reflexivity.
      + cbn [Nat.mul Nat.add]. rewrite fpow_1, Hw. cbn [fpow]. rewrite mscale_1, msub_def. reflexivity.
    - set (n := (2 ^ S k)%nat) in *.
      assert (Hn : (2 ^ S (S k) = 2 * n)%nat) by (unfold n; rewrite !Nat.pow_succ_r'; lia).
      assert (Hn0 : (0 < n)%nat) by (unfold n; pose proof (Nat.pow_nonzero 2 (S k)); lia).
      assert (Hn2 : (n = 2 * 2 ^ k)%nat) by (unfold n; rewrite Nat.pow_succ_r'; lia).
      rewrite Hn in *. replace (S (S k) - 1)%nat with (S k) in * by lia. fold n in Htw, Hw.
      change (rec_bfly (S (S k)) tw tc a') with
        (bfly tw tc (rec_bfly (S k) tw (tc * 2) (firstn n a')) (rec_bfly (S k) tw (tc * 2) (skipn n a'))).
      destruct (IH (sqr w) tw (tc * 2)%nat (firstn n a') (fun j => a (2 * j)%nat)) as [LL EL].
      { lia. } { rewrite firstn_length. lia. }
      { intros j Hj. rewrite nth_firstn_lt by exact Hj. rewrite Ha by lia.
        rewrite bitrev_low by (try lia; exact Hj). reflexivity. }
      { intros i Hi. replace (S k - 1)%nat with k in Hi by lia.
        replace (i * (tc * 2))%nat with ((2 * i) * tc)%nat by lia.
        rewrite Htw by lia. unfold sqr.
        replace (fmul w w) with (fpow w 2) by (cbn; ring). rewrite <- fpow_mul. reflexivity. }
      { replace (S k - 1)%nat with k by lia. unfold sqr.
        replace (fmul w w) with (fpow w 2) by (cbn; ring). rewrite <- fpow_mul, <- Hn2. exact Hw. }
      destruct (IH (sqr w) tw (tc * 2)%nat (skipn n a') (fun j => a (2 * j + 1)%nat)) as [LR ER].
      { lia. } { rewrite skipn_length. lia. }
      { intros j Hj. rewrite nth_skipn_add. rewrite Ha by lia.
        unfold n. rewrite bitrev_high by (try lia; exact Hj). reflexivity. }
      { intros i Hi. replace (S k - 1)%nat with k in Hi by lia.
        replace (i * (tc * 2))%nat with ((2 * i) * tc)%nat by lia.
        rewrite Htw by lia. unfold sqr.
        replace (fmul w w) with (fpow w 2) by (cbn; ring). rewrite <- fpow_mul. reflexivity. }
      { replace (S k - 1)%nat with k by lia. unfold sqr.
        replace (fmul w w) with (fpow w 2) by (cbn; ring). rewrite <- fpow_mul, <- Hn2. exact Hw. }
      fold n in LL, EL, LR, ER.
      destruct (bfly_ok tw tc _ _ w n LL LR Hn0 Htw) as [LB EB].
      split; [exact LB|]. intros i Hi.
      assert (Hsq : fpow (sqr w) n = f1).
      { unfold sqr. replace (fmul w w) with (fpow w 2) by (cbn; ring).
        rewrite <- fpow_mul. replace (2 * n)%nat with (n * 2)%nat by lia.
        rewrite fpow_mul, Hw. cbn. ring. }
      destruct (Nat.lt_ge_cases i n) as [Hlt|Hge].
      + destruct (EB i Hlt) as [-> _]. rewrite EL, ER by exact Hlt. rewrite dft_split. reflexivity.
      + replace i with (n + (i - n))%nat by lia.
        destruct (EB (i - n)%nat ltac:(lia)) as [_ ->]. rewrite EL, ER by lia.
        rewrite dft_split. rewrite !dft_period by exact Hsq.
        f_equal. f_equal. rewrite fpow_add, Hw. ring.
  Qed.

  (** serial path = recursive path *)
  Definition blk {A} (c q : nat) (l : list A) : list A := firstn c (skipn (q * c) l).

  Lemma bfly_length (tw : list F) tc (l r : list M) : length l = length r -> (0 < length l)%nat ->
    length (bfly tw tc l r) = (2 * length l)%nat.
  Proof.
    intros H H0. destruct l as [|a l]; [cbn in H0; lia|]. destruct r as [|b r]; [discriminate|].
    cbn [bfly]. pose proof (bfly_tail_ok tw tc l r 0 ltac:(cbn in *; lia)) as T.
    destruct (bfly_tail tw tc 0 l r) as [x y]. destruct T as (L1 & L2 & _).
    rewrite app_length. cbn [length]. lia.
  Qed.

  Lemma blk_0 {A} c (l : list A) : blk c 0 l = firstn c l.
  Proof. reflexivity. Qed.

  Lemma skipn_skipn_ {A} n m (l : list A) : skipn n (skipn m l) = skipn (m + n) l.
  Proof.
    revert l. induction m as [|m IH]; intros l; [reflexivity|].
    destruct l as [|a l]; [rewrite !skipn_nil; reflexivity|]. cbn [skipn plus Nat.add]. apply IH.
  Qed.

  Lemma blk_S {A} c q (l : list A) : blk c (S q) l = blk c q (skipn c l).
  Proof. unfold blk. rewrite skipn_skipn_. do 2 f_equal. Qed.

  Lemma blk_app_0 {A} c (l1 l2 : list A) : length l1 = c -> blk c 0 (l1 ++ l2) = l1.
  Proof. intros <-. rewrite blk_0, firstn_app, Nat.sub_diag, firstn_all, firstn_O, app_nil_r. reflexivity. Qed.

  Lemma blk_app_S {A} c q (l1 l2 : list A) : length l1 = c -> blk c (S q) (l1 ++ l2) = blk c q l2.
  Proof.
    intros <-. rewrite blk_S, skipn_app, Nat.sub_diag, skipn_all. reflexivity.
  Qed.

  Lemma chunk_pass_ok (tw : list F) tc h : (0 < h)%nat -> forall m fuel (a : list M),
    length a = (m * (2 * h))%nat -> (m < fuel)%nat ->
    length (chunk_pass fuel tw tc (2 * h) a) = length a /\
    forall q, (q < m)%nat ->
      blk (2 * h) q (chunk_pass fuel tw tc (2 * h) a)
      = bfly tw tc (blk h (2 * q) a) (blk h (2 * q + 1) a).
  Proof.
    intros Hh. induction m as [|m IH]; intros fuel a Ha Hf.
    - destruct a; [|cbn in Ha; lia]. destruct fuel; [lia|]. split; [reflexivity|]. intros; lia.
    - destruct fuel as [|fuel]; [lia|]. cbn [chunk_pass].
      destruct a as [|x a0] eqn:Ea; [cbn in Ha; lia|]. rewrite <- Ea in *. clear Ea x a0.
      replace (2 * h / 2)%nat with h by (rewrite Nat.mul_comm, Nat.div_mul; lia).
      destruct (IH fuel (skipn (2 * h) a)) as [L E].
      { rewrite skipn_length, Ha. lia. } { lia. }
      set (b := bfly tw tc (firstn h (firstn (2 * h) a)) (skipn h (firstn (2 * h) a))).
      assert (Lf : length (firstn h (firstn (2 * h) a)) = h) by (rewrite !firstn_length, Ha; lia).
      assert (Ls : length (skipn h (firstn (2 * h) a)) = h) by (rewrite skipn_length, firstn_length, Ha; lia).
      assert (Lb : length b = (2 * h)%nat) by (unfold b; rewrite bfly_length; lia).
      split.
      + rewrite app_length, Lb, L, skipn_length, Ha. lia.
      + intros q Hq. destruct q as [|q].
        * rewrite blk_app_0 by exact Lb. unfold b. f_equal.
          -- rewrite firstn_firstn. replace (Nat.min h (2 * h)) with h by lia. reflexivity.
          -- unfold blk. rewrite firstn_skipn_comm.
             replace ((2 * 0 + 1) * h)%nat with h by lia.
             replace (h + h)%nat with (2 * h)%nat by lia. reflexivity.
        * rewrite blk_app_S by exact Lb. rewrite E by lia. f_equal.
          -- unfold blk. rewrite skipn_skipn_. do 2 f_equal. lia.
          -- unfold blk. rewrite skipn_skipn_. do 2 f_equal. lia.
  Qed.

  Lemma blk_length {A} c q (l : list A) : ((q + 1) * c <= length l)%nat -> length (blk c q l) = c.
  Proof. intros H. unfold blk. rewrite firstn_length, skipn_length. lia. Qed.

  Lemma blk_half {A} h q (l : list A) :
    firstn h (blk (2 * h) q l) = blk h (2 * q) l /\ skipn h (blk (2 * h) q l) = blk h (2 * q + 1) l.
  Proof.
    unfold blk. split.
    - rewrite firstn_firstn. replace (Nat.min h (2 * h)) with h by lia. do 2 f_equal. lia.
    - rewrite firstn_skipn_comm. replace (h + h)%nat with (2 * h)%nat by lia.
      rewrite !firstn_skipn_comm. rewrite skipn_skipn_. f_equal; [lia|]. f_equal. lia.
  Qed.

  (** state after r rounds *)
  Lemma iter_rounds_app (tw : list F) r1 : forall r2 tc chunk (a : list M),
    (forall j, (j < r1)%nat -> True) ->
    iter_rounds (r1 + r2) tw tc chunk a
    = iter_rounds r2 tw (tc / 2 ^ r1) (chunk * 2 ^ r1) (iter_rounds r1 tw tc chunk a).
  Proof.
    induction r1 as [|r1 IH]; intros r2 tc chunk a _.
    - cbn [plus Nat.add iter_rounds Nat.pow]. rewrite Nat.div_1_r, Nat.mul_1_r. reflexivity.
    - cbn [plus Nat.add iter_rounds]. rewrite IH by auto.
      rewrite Nat.div_div by (try lia; apply Nat.pow_nonzero; lia).
      rewrite Nat.pow_succ_r'. f_equal. lia.
  Qed.

  Lemma iter_blocks (tw : list F) r : forall m (a : list M) n,
    length a = (m * 2 ^ S r)%nat -> n = (m * 2 ^ S r)%nat ->
    length (iter_rounds (S r) tw (n / 2) 2 a) = length a /\
    forall q, (q < m)%nat ->
      blk (2 ^ S r) q (iter_rounds (S r) tw (n / 2) 2 a)
      = rec_bfly (S r) tw (n / 2 ^ S r) (blk (2 ^ S r) q a).
  Proof.
    induction r as [|r IH]; intros m a n Ha Hn.
    - cbn [iter_rounds]. change (2 ^ 1)%nat with (2 * 1)%nat in *.
      change 2%nat with (2 * 1)%nat at 2 5.
      destruct (chunk_pass_ok tw (n / 2) 1 ltac:(lia) m (S (length a)) a Ha ltac:(lia)) as [L E].
      split; [exact L|]. intros q Hq. rewrite E by exact Hq.
      assert (L1 : length (blk 1 (2 * q) a) = 1%nat) by (apply blk_length; rewrite Ha; nia).
      assert (L2 : length (blk 1 (2 * q + 1) a) = 1%nat) by (apply blk_length; rewrite Ha; nia).
      destruct (blk_half 1 q a) as [B1 B2].
      assert (Lb : length (blk (2 * 1) q a) = 2%nat) by (apply blk_length; rewrite Ha; nia).
      destruct (blk (2 * 1) q a) as [|x [|y [|]]]; cbn in Lb; try lia.
      rewrite <- B1, <- B2. reflexivity.
    - assert (P2 : (2 ^ S (S r) = 2 * 2 ^ S r)%nat) by (rewrite Nat.pow_succ_r'; lia).
      assert (P0 : (0 < 2 ^ S r)%nat) by (pose proof (Nat.pow_nonzero 2 (S r)); lia).
      assert (Ei : iter_rounds (S (S r)) tw (n / 2) 2 a
                   = chunk_pass (S (length (iter_rounds (S r) tw (n / 2) 2 a))) tw (n / 2 / 2 ^ S r) (2 * 2 ^ S r)
                       (iter_rounds (S r) tw (n / 2) 2 a)).
      { replace (S (S r)) with (S r + 1)%nat at 1 by lia. rewrite iter_rounds_app by auto. reflexivity. }
      rewrite Ei. clear Ei. rewrite P2 in *.
      destruct (IH (2 * m)%nat a n) as [L E]; [nia|nia|].
      set (R := iter_rounds (S r) tw (n / 2) 2 a) in *.
      destruct (chunk_pass_ok tw (n / 2 / 2 ^ S r) (2 ^ S r) P0 m (S (length R)) R) as [LC EC].
      { rewrite L, Ha. lia. }
      { rewrite L, Ha. nia. }
      split; [rewrite LC, L; reflexivity|].
      intros q Hq.
      rewrite EC by exact Hq. rewrite !E by lia.
      change (rec_bfly (S (S r)) tw (n / (2 * 2 ^ S r)) (blk (2 * 2 ^ S r) q a)) with
        (bfly tw (n / (2 * 2 ^ S r)) (rec_bfly (S r) tw (n / (2 * 2 ^ S r) * 2) (firstn (2 ^ S r) (blk (2 * 2 ^ S r) q a)))
                   (rec_bfly (S r) tw (n / (2 * 2 ^ S r) * 2) (skipn (2 ^ S r) (blk (2 * 2 ^ S r) q a)))).
      destruct (blk_half (2 ^ S r) q a) as [-> ->].
      rewrite Nat.div_div by lia.
      assert (Hd : (n / (2 * 2 ^ S r) = m)%nat).
      { rewrite Hn. apply Nat.div_mul. lia. }
      assert (Hd2 : (n / 2 ^ S r = m * 2)%nat).
      { rewrite Hn.
        replace (m * (2 * 2 ^ S r))%nat with ((m * 2) * 2 ^ S r)%nat by lia. apply Nat.div_mul. lia. }
      rewrite Hd, Hd2. reflexivity.
  Qed.

  (** * The transform *)
  Theorem fft_ok threads (a : list M) (w : F) k :
    (0 < threads)%nat -> (k <= 32)%nat -> length a = (2 ^ k)%nat ->
    (1 <= k -> fpow w (2 ^ (k - 1)) = fopp f1)%nat ->
    exists r, fft threads a w k = Some r /\ length r = length a /\ forall i, (i < length a)%nat -> nth i r m0 = dft w (2 ^ k) (fun j => nth j a m0) i.
  Proof.
    intros Ht Hk Ha Hw. unfold fft. rewrite Ha, Nat.eqb_refl.
    destruct (Nat.ltb_spec 0 threads); [|lia]. cbn [andb].
    destruct (bitrev_loop_ok a k Hk Ha) as [LB EB].
    set (b := bitrev_loop a k) in *.
    destruct k as [|k].
    - replace (0 <=? log2_floor threads) with true by reflexivity.
      cbn [iter_rounds]. exists b. split; [reflexivity|]. split; [rewrite LB; exact Ha|].
      intros i Hi. cbn in Hi. assert (i = 0)%nat by lia. subst i.
      unfold dft. cbn [Nat.pow msum Nat.mul fpow]. rewrite madd_0, mscale_1.
      cbn in Ha. specialize (EB 0%nat ltac:(lia)). change (bitrev 0 0) with 0%nat in EB.
      destruct a as [|x [|]]; cbn in Ha; try lia. destruct b as [|y b]; cbn in EB |- *; congruence.
    - specialize (Hw ltac:(lia)).
      assert (P : (2 ^ S k = 2 * 2 ^ k)%nat) by (rewrite Nat.pow_succ_r'; lia).
      assert (P0 : (0 < 2 ^ k)%nat) by (pose proof (Nat.pow_nonzero 2 k); lia).
      replace (S k - 1)%nat with k in * by lia.
      assert (Heq : (if (S k <=? log2_floor threads)%nat
                     then Some (iter_rounds (S k) (twiddles w (2 ^ S k)) (2 ^ S k / 2) 2 b)
                     else Some (rec_bfly (S k) (twiddles w (2 ^ S k)) 1 b))
                  = Some (rec_bfly (S k) (twiddles w (2 ^ S k)) 1 b)).
      { destruct (S k <=? log2_floor threads)%nat; [|reflexivity]. f_equal.
        destruct (iter_blocks (twiddles w (2 ^ S k)) k 1 b (2 ^ S k)) as [L E]; [lia|lia|].
        specialize (E 0%nat ltac:(lia)). rewrite !blk_0 in E.
        rewrite firstn_all2 in E by (rewrite L, LB, Ha; lia).
        rewrite E. rewrite Nat.div_same by (rewrite P; lia).
        rewrite firstn_all2 by (rewrite LB, Ha; lia). reflexivity. }
      rewrite Heq. exists (rec_bfly (S k) (twiddles w (2 ^ S k)) 1 b). split; [reflexivity|].
      destruct (rec_bfly_ok (S k) w (twiddles w (2 ^ S k)) 1 b (fun j => nth j a m0)) as [L E].
      + lia.
      + lia.
      + intros j Hj. specialize (EB j ltac:(lia)). 
        destruct (nth_error a (bitrev j (S k))) as [x|] eqn:Ex.
        * rewrite (nth_error_nth _ _ m0 EB), (nth_error_nth _ _ m0 Ex). reflexivity.
        * apply nth_error_None in Ex. pose proof (bitrev_lt j (S k) Hk). lia.
      + intros i Hi. rewrite Nat.mul_1_r. apply twiddles_nth.
        replace (S k - 1)%nat with k in Hi by lia.
        replace (2 ^ S k / 2)%nat with (2 ^ k)%nat; [lia|]. rewrite P, Nat.mul_comm, Nat.div_mul; lia.
      + replace (S k - 1)%nat with k by lia. exact Hw.
      + split; [lia|]. exact E.
  Qed.

  Lemma fft_none threads (a : list M) (w : F) k :
    (length a <> 2 ^ k \/ threads = 0)%nat -> fft threads a w k = None.
  Proof.
    intros H. unfold fft. destruct H as [H| ->].
    - apply Nat.eqb_neq in H. rewrite H. reflexivity.
    - rewrite andb_false_r. reflexivity.
  Qed.

  (** * Orthogonality of roots of unity *)
  Lemma geo_zero (z : F) n : z <> f1 -> fpow z n = f1 -> fsum n (fun i => fpow z i) = f0.
  Proof.
    intros Hz Hn.
    assert (E : forall m, fmul (fsub z f1) (fsum m (fun i => fpow z i)) = fsub (fpow z m) f1).
    { induction m as [|m IH]; cbn [fsum fpow]; [ring|].
      replace (fmul (fsub z f1) (fadd (fsum m (fun i => fpow z i)) (fpow z m)))
        with (fadd (fmul (fsub z f1) (fsum m (fun i => fpow z i))) (fmul (fsub z f1) (fpow z m))) by ring.
      rewrite IH. ring. }
    specialize (E n). rewrite Hn in E.
    replace (fsub f1 f1) with (f0 : F) in E by ring.
    apply fmul_integral in E. destruct E as [E|E]; [|exact E].
    exfalso. apply Hz. apply fsub_eq_0. exact E.
  Qed.

  Lemma root_distinct (w : F) k i : two <> f0 :> F ->
    (1 <= k -> fpow w (2 ^ (k - 1)) = fopp f1)%nat -> (0 < i < 2 ^ k)%nat -> fpow w i <> f1.
  Proof.
    intros H2 Hw. revert i. 
    (* write i = 2^j * odd; then w^(i*2^(k-1-j)) = -1 *)
    destruct k as [|k]; [intros; cbn in *; lia|]. specialize (Hw ltac:(lia)).
    replace (S k - 1)%nat with k in Hw by lia.
    assert (Hm1 : fopp f1 <> f1 :> F).
    { intros E. apply H2. unfold two. rewrite <- E at 1. ring. }
    assert (Hodd : forall m, fpow (fopp f1 : F) (2 * m + 1) = fopp f1).
    { intros m. rewrite fpow_add, fpow_mul, fpow_1. replace (fpow (fopp f1 : F) 2) with (f1 : F) by (cbn; ring).
      rewrite fpow_one. ring. }
    assert (G : forall j, (j <= k)%nat -> forall w' : F, fpow w' (2 ^ j) = fopp f1 -> forall i, (0 < i < 2 ^ S j)%nat -> fpow w' i <> f1).
    { induction j as [|j IH]; intros Hj w' Hw' i Hi E.
      - cbn in Hi. assert (i = 1)%nat by lia. subst i. cbn [Nat.pow] in Hw'. rewrite E in Hw'. congruence.
      - destruct (Nat.Even_or_Odd i) as [[m ->]|[m ->]].
        + rewrite fpow_mul in E. apply (IH ltac:(lia) (fpow w' 2)) with (i := m).
          * rewrite <- fpow_mul, <- Nat.pow_succ_r'. exact Hw'.
          * rewrite !Nat.pow_succ_r' in *. lia.
          * exact E.
        + assert (E2 : fpow (fpow w' (2 ^ S j)) (2 * m + 1) = f1).
          { rewrite <- fpow_mul. rewrite Nat.mul_comm, fpow_mul, E, fpow_one. reflexivity. }
          rewrite Hw', Hodd in E2. congruence. }
    intros i Hi. apply (G k); auto.
  Qed.

  Lemma root_order (w : F) k : (1 <= k -> fpow w (2 ^ (k - 1)) = fopp f1)%nat ->
    (k = 0%nat -> w = f1) -> fpow w (2 ^ k) = f1.
  Proof.
    intros Hw H0. destruct k as [|k]; [cbn [Nat.pow]; rewrite fpow_1; apply H0; reflexivity|].
    specialize (Hw ltac:(lia)). replace (S k - 1)%nat with k in Hw by lia.
    rewrite Nat.pow_succ_r', Nat.mul_comm, fpow_mul, Hw. cbn. ring.
  Qed.

  Lemma fpow_mod (w : F) n e : (0 < n)%nat -> fpow w n = f1 -> fpow w e = fpow w (e mod n).
  Proof.
    intros Hn H. rewrite (Nat.div_mod e n) at 1 by lia.
    rewrite fpow_add, fpow_mul, H, fpow_one. ring.
  Qed.

  Lemma orth (w : F) k e : two <> f0 :> F ->
    (1 <= k -> fpow w (2 ^ (k - 1)) = fopp f1)%nat -> (k = 0%nat -> w = f1) ->
    fsum (2 ^ k) (fun i => fpow w (i * e)) = if (e mod 2 ^ k =? 0)%nat then fnat (2 ^ k) else f0.
  Proof.
    intros H2 Hw H0. pose proof (root_order w k Hw H0) as Hn.
    assert (P0 : (0 < 2 ^ k)%nat) by (pose proof (Nat.pow_nonzero 2 k); lia).
    rewrite (fsum_ext F (2 ^ k) _ (fun i => fpow (fpow w e) i))
      by (intros i _; rewrite Nat.mul_comm, fpow_mul; reflexivity).
    rewrite (fpow_mod w (2 ^ k) e P0 Hn).
    destruct (Nat.eqb_spec (e mod 2 ^ k) 0) as [E|E].
    - rewrite E. rewrite (fsum_ext F (2 ^ k) _ (fun _ => f1)) by (intros; cbn [fpow]; apply fpow_one).
      rewrite fsum_const. ring.
    - apply geo_zero.
      + apply (root_distinct w k); auto. pose proof (Nat.mod_upper_bound e (2 ^ k)). lia.
      + rewrite <- fpow_mul, Nat.mul_comm, fpow_mul, Hn, fpow_one. reflexivity.
  Qed.

  (** inversion of the transform: a transform with w' = 1/w after one with w
      multiplies by n *)
  Lemma dft_inverse (w w' : F) k (a : nat -> M) i : two <> f0 :> F ->
    (1 <= k -> fpow w (2 ^ (k - 1)) = fopp f1)%nat -> (k = 0%nat -> w = f1) -> fmul w w' = f1 ->
    (i < 2 ^ k)%nat ->
    dft w' (2 ^ k) (fun j => dft w (2 ^ k) a j) i = mscale (fnat (2 ^ k)) (a i).
  Proof.
    intros H2 Hw H0 Hinv Hi. set (n := (2 ^ k)%nat) in *.
    assert (P0 : (0 < n)%nat) by lia.
    pose proof (root_order w k Hw H0) as Hn. fold n in Hn.
    assert (Hw' : w' = fpow w (n - 1)).
    { assert (w <> f0).
      { intros E. rewrite E in Hinv. replace (fmul f0 w') with (f0 : F) in Hinv by ring.
        symmetry in Hinv. exact (f1_neq_0 F Hinv). }
      apply (fmul_cancel_l F w); [assumption|]. rewrite Hinv.
      change (fmul w (fpow w (n - 1))) with (fpow w (S (n - 1))).
      replace (S (n - 1)) with n by lia. rewrite Hn. reflexivity. }
    unfold dft.
    rewrite (msum_ext F M n _ (fun j => msum n (fun l => mscale (fpow w (j * ((n - 1) * i + l))) (a l)))).
    2:{ intros j Hj. rewrite <- msum_scale. apply msum_ext. intros l Hl. rewrite mscale_mul.
        f_equal. rewrite Hw', <- fpow_mul, <- fpow_add. f_equal. lia. }
    rewrite msum_swap.
    rewrite (msum_ext F M n _ (fun l => mscale (if ((((n - 1) * i + l) mod n) =? 0)%nat then fnat n else f0) (a l))).
    2:{ intros l Hl. rewrite <- mscale_fsum. f_equal. apply orth; assumption. }
    rewrite (msum_single F M n i).
    - replace (((n - 1) * i + i) mod n)%nat with 0%nat; [reflexivity|].
      replace ((n - 1) * i + i)%nat with (i * n)%nat; [rewrite Nat.mod_mul; lia|].
      rewrite Nat.mul_sub_distr_r, Nat.mul_1_l, Nat.mul_comm.
      assert (i <= n * i)%nat by nia. lia.
    - exact Hi.
    - intros l Hl Hne. destruct (Nat.eqb_spec (((n - 1) * i + l) mod n) 0) as [E|E].
      + exfalso. apply Nat.mod_divide in E; [|lia]. destruct E as [q Hq].
        assert (Hq' : (q * n + i = n * i + l)%nat).
        { rewrite <- Hq, Nat.mul_sub_distr_r, Nat.mul_1_l. assert (i <= n * i)%nat by nia. lia. }
        apply Hne. destruct (Nat.lt_trichotomy q i) as [|[|]]; nia.
      + apply mscale_0.
  Qed.
End FFTP.

(** * Domains *)
Section DomP.
  Variable F : Field.
  Variable T : TwoAdic F.
  Add Field FFd : (f_theory F).

  Lemma ta_two_nz : (two : F) <> f0.
  Proof.
    intros E. pose proof (ta_half T) as H. rewrite E in H.
    replace (fmul f0 (ta_two_inv T)) with (f0 : F) in H by ring. symmetry in H. exact (f1_neq_0 F H).
  Qed.

  (** what a domain of size 2^k is *)
  Record dom_ok (k : nat) (d : Domain F) : Prop := {
    do_n : d_n d = (2 ^ k)%nat;
    do_log : d_log2_n d = k;
    do_omega : d_omega d = fpow (ta_root T) (2 ^ (ta_S T - k));
    do_omega_inv : fmul (d_omega d) (d_omega_inv d) = f1;
    do_ninv : fmul (fnat (2 ^ k)) (d_n_inv d) = f1;
    do_half : (1 <= k)%nat -> fpow (d_omega d) (2 ^ (k - 1)) = fopp f1;
    do_triv : k = 0%nat -> d_omega d = f1
  }.

  Lemma omega_half k : (k <= ta_S T)%nat ->
    ((1 <= k)%nat -> fpow (fpow (ta_root T) (2 ^ (ta_S T - k))) (2 ^ (k - 1)) = fopp f1) /\
    (k = 0%nat -> fpow (ta_root T) (2 ^ (ta_S T - k)) = f1).
  Proof.
    intros Hk. split.
    - intros H1. rewrite <- fpow_mul, <- Nat.pow_add_r.
      replace (ta_S T - k + (k - 1))%nat with (ta_S T - 1)%nat by lia. apply ta_order.
    - intros ->. rewrite Nat.sub_0_r. pose proof (ta_S_pos T). pose proof (ta_order T) as H0.
      replace (ta_S T) with (S (ta_S T - 1)) by lia.
      rewrite Nat.pow_succ_r', Nat.mul_comm, fpow_mul, H0. cbn. ring.
  Qed.

  Lemma dom_default_ok : dom_ok (ta_S T) (domain_default T).
  Proof.
    destruct (omega_half (ta_S T) (Nat.le_refl _)) as [O1 O2].
    rewrite Nat.sub_diag, fpow_1 in O1, O2.
    split; cbn [domain_default d_n d_log2_n d_omega d_omega_inv d_n_inv]; auto.
    - rewrite Nat.sub_diag, fpow_1. reflexivity.
    - apply ta_inv.
    - rewrite fnat_pow2, <- fpow_mul_base, ta_half. apply fpow_one.
  Qed.

  Lemma halve_ok k d : (S k <= ta_S T)%nat -> dom_ok (S k) d ->
    exists d', halve d = Some d' /\ dom_ok k d'.
  Proof.
    intros Hk [H1 H2 H3 H4 H5 H6 H7]. unfold halve. rewrite H2. cbn [Nat.eqb].
    replace (S k - 1)%nat with k by lia. eexists. split; [reflexivity|].
    destruct (omega_half k ltac:(lia)) as [O1 O2].
    assert (E : sqr (d_omega d) = fpow (ta_root T) (2 ^ (ta_S T - k))).
    { rewrite H3. unfold sqr. rewrite fpow_sq, <- Nat.pow_succ_r'. do 2 f_equal. lia. }
    split; cbn [d_n d_log2_n d_omega d_omega_inv d_n_inv]; auto.
    - unfold sqr. replace (fmul (fmul (d_omega d) (d_omega d)) (fmul (d_omega_inv d) (d_omega_inv d)))
        with (fmul (fmul (d_omega d) (d_omega_inv d)) (fmul (d_omega d) (d_omega_inv d))) by ring.
      rewrite H4. ring.
    - rewrite <- H5. rewrite Nat.pow_succ_r', fnat_mul, fnat_two. unfold dbl, two. ring.
    - rewrite E. exact O1.
    - rewrite E. exact O2.
  Qed.

  Lemma halve_times_ok m : forall k d, (k + m <= ta_S T)%nat -> dom_ok (k + m) d ->
    exists d', halve_times m d = Some d' /\ dom_ok k d'.
  Proof.
    induction m as [|m IH]; intros k d Hk H.
    - rewrite Nat.add_0_r in H. exists d. split; [reflexivity|exact H].
    - cbn [halve_times]. destruct (halve_ok (k + m) d) as (d1 & -> & D1).
      { lia. } { replace (S (k + m)) with (k + S m)%nat by lia. exact H. }
      apply (IH k d1); [lia|exact D1].
  Qed.

  Lemma domain_new_ok k : (k <= ta_S T)%nat ->
    exists d, domain_new T k = Some d /\ dom_ok k d.
  Proof.
    intros Hk. unfold domain_new. destruct (Nat.leb_spec k (ta_S T)); [|lia].
    destruct (halve_times_ok (ta_S T - k) k (domain_default T)) as (d & -> & D).
    { lia. } { replace (k + (ta_S T - k))%nat with (ta_S T) by lia. apply dom_default_ok. }
    rewrite (do_log _ _ D), Nat.eqb_refl. exists d. split; [reflexivity|exact D].
  Qed.

  Lemma domain_new_inv k d : domain_new T k = Some d -> (k <= ta_S T)%nat /\ dom_ok k d.
  Proof.
    intros H. destruct (Nat.le_gt_cases k (ta_S T)) as [L|L].
    - split; [exact L|]. destruct (domain_new_ok k L) as (d' & E & D). congruence.
    - unfold domain_new in H. destruct (Nat.leb_spec k (ta_S T)); [lia|discriminate].
  Qed.

  Lemma dom_pow_n k d : dom_ok k d -> fpow (d_omega d) (2 ^ k) = f1.
  Proof. intros D. apply root_order; [apply (do_half _ _ D)|apply (do_triv _ _ D)]. Qed.

  Lemma dom_distinct k d i j : dom_ok k d -> (i < 2 ^ k)%nat -> (j < 2 ^ k)%nat ->
    fpow (d_omega d) i = fpow (d_omega d) j -> i = j.
  Proof.
    intros D. assert (Hw : d_omega d <> f0).
    { intros E. pose proof (do_omega_inv _ _ D) as H. rewrite E in H.
      replace (fmul f0 (d_omega_inv d)) with (f0 : F) in H by ring. symmetry in H. exact (f1_neq_0 F H). }
    assert (G : forall i j, (i < j)%nat -> (j < 2 ^ k)%nat -> fpow (d_omega d) i <> fpow (d_omega d) j).
    { intros i' j' Hij Hj E. replace j' with (i' + (j' - i'))%nat in E by lia. rewrite fpow_add in E.
      assert (E2 : fpow (d_omega d) (j' - i') = f1).
      { apply (fmul_cancel_l F (fpow (d_omega d) i')); [apply fpow_nonzero; exact Hw|].
        rewrite <- E. ring. }
      revert E2. apply (root_distinct F (d_omega d) k); [apply ta_two_nz|apply (do_half _ _ D)|lia]. }
    intros Hi Hj E. destruct (Nat.lt_trichotomy i j) as [L|[L|L]]; [|exact L|].
    - exfalso. exact (G i j L Hj E).
    - exfalso. symmetry in E. exact (G j i L Hi E).
  Qed.

  (** membership *)
  Lemma contains_ok k d x : dom_ok k d ->
    (d_contains d x = true <-> exists i, (i < 2 ^ k)%nat /\ x = fpow (d_omega d) i).
  Proof.
    intros D. unfold d_contains. rewrite (do_n _ _ D), feqb_true.
    assert (P0 : (0 < 2 ^ k)%nat) by (pose proof (Nat.pow_nonzero 2 k); lia).
    split.
    - intros Hx. 
      destruct (in_dec (feq_dec F) x (map (fpow (d_omega d)) (seq 0 (2 ^ k)))) as [I|I].
      + apply in_map_iff in I. destruct I as (i & <- & Hi). apply in_seq in Hi. exists i. split; [lia|reflexivity].
      + exfalso.
        (* n+1 distinct roots of X^n - 1 *)
        set (p := fopp f1 :: repeat (f0 : F) (2 ^ k - 1) ++ [f1]).
        assert (Ep : forall y, peval p y = fsub (fpow y (2 ^ k)) f1).
        { intros y. unfold p. cbn [peval]. rewrite peval_app, peval_zeros, repeat_length. cbn [peval].
          replace (2 ^ k)%nat with (S (2 ^ k - 1)) at 2 by lia. cbn [fpow]. ring. }
        set (L := x :: map (fpow (d_omega d)) (seq 0 (2 ^ k))).
        assert (ND : NoDup L).
        { constructor; [exact I|]. 
          assert (G : forall l, NoDup l -> (forall i, In i l -> (i < 2 ^ k)%nat) -> NoDup (map (fpow (d_omega d)) l)).
          { induction l as [|a l IHl]; intros Hnd Hlt; [constructor|]. inversion Hnd; subst.
            cbn. constructor; [|apply IHl; auto; intros; apply Hlt; right; assumption].
            intros Hin. apply in_map_iff in Hin. destruct Hin as (b & Eb & Hb).
            apply (dom_distinct k d) in Eb; auto; [subst; contradiction|apply Hlt; right; exact Hb|apply Hlt; left; reflexivity]. }
          apply G; [apply seq_NoDup|]. intros i Hi. apply in_seq in Hi. lia. }
        assert (Lp : length p = S (2 ^ k)).
        { unfold p. cbn [length]. rewrite app_length, repeat_length. cbn [length]. lia. }
        assert (Z : Forall (fun c => c = f0) p).
        { apply (roots_bound F p L ND).
          - rewrite Lp. unfold L. cbn [length]. rewrite map_length, seq_length. lia.
          - intros y Hy. rewrite Ep. apply fsub_eq_0. destruct Hy as [<-|Hy]; [exact Hx|].
            apply in_map_iff in Hy. destruct Hy as (i & <- & Hi).
            rewrite <- fpow_mul, Nat.mul_comm, fpow_mul, (dom_pow_n k d D). apply fpow_one. }
        rewrite Forall_forall in Z. specialize (Z f1).
        apply (f1_neq_0 F). apply Z. unfold p. right. apply in_or_app. right. left. reflexivity.
    - intros (i & Hi & ->). rewrite <- fpow_mul, Nat.mul_comm, fpow_mul, (dom_pow_n k d D). apply fpow_one.
  Qed.

  (** transforms over a domain *)
  Section Ring.
    Variable M : FMod F.

    Lemma ring_fft_ok threads k d (a : list M) : dom_ok k d -> (k <= 32)%nat -> (0 < threads)%nat ->
      length a = (2 ^ k)%nat ->
      exists r, ring_fft threads d a = Some r /\ length r = (2 ^ k)%nat /\
        forall i, (i < 2 ^ k)%nat ->
          nth i r m0 = msum (2 ^ k) (fun j => mscale (fpow (fpow (d_omega d) i) j) (nth j a m0)).
    Proof.
      intros D Hk Ht Ha. unfold ring_fft. rewrite (do_log _ _ D).
      destruct (fft_ok F M threads a (d_omega d) k Ht Hk Ha (do_half _ _ D)) as (r & E & L & N).
      exists r. split; [exact E|]. split; [lia|]. intros i Hi. rewrite N by lia.
      unfold dft. apply msum_ext. intros j _. rewrite <- fpow_mul. do 2 f_equal. lia.
    Qed.

    Lemma inv_half k d : dom_ok k d -> (1 <= k)%nat -> fpow (d_omega_inv d) (2 ^ (k - 1)) = fopp f1.
    Proof.
      intros D H1. pose proof (do_half _ _ D H1) as H. pose proof (do_omega_inv _ _ D) as HI.
      assert (E : fmul (fpow (d_omega d) (2 ^ (k - 1))) (fpow (d_omega_inv d) (2 ^ (k - 1))) = f1)
        by (rewrite <- fpow_mul_base, HI; apply fpow_one).
      rewrite H in E.
      replace (fpow (d_omega_inv d) (2 ^ (k - 1)))
        with (fopp (fmul (fopp f1) (fpow (d_omega_inv d) (2 ^ (k - 1))))) by ring.
      rewrite E. reflexivity.
    Qed.

    Lemma inv_triv k d : dom_ok k d -> k = 0%nat -> d_omega_inv d = f1.
    Proof.
      intros D H. pose proof (do_triv _ _ D H) as HT. pose proof (do_omega_inv _ _ D) as HI.
      rewrite HT in HI. rewrite <- HI. ring.
    Qed.

    Lemma ifft_raw threads k d (a : list M) : dom_ok k d -> (k <= 32)%nat -> (0 < threads)%nat ->
      length a = (2 ^ k)%nat ->
      exists r, ring_ifft threads d a = Some r /\ length r = (2 ^ k)%nat /\
        forall i, (i < 2 ^ k)%nat ->
          nth i r m0 = mscale (d_n_inv d) (dft F M (d_omega_inv d) (2 ^ k) (fun j => nth j a m0) i).
    Proof.
      intros D Hk Ht Ha. unfold ring_ifft. rewrite (do_log _ _ D).
      destruct (fft_ok F M threads a (d_omega_inv d) k Ht Hk Ha (inv_half k d D)) as (r & E & L & N).
      rewrite E. exists (map (mscale (d_n_inv d)) r). split; [reflexivity|].
      split; [rewrite map_length; lia|]. intros i Hi.
      rewrite (nth_indep _ m0 (mscale (d_n_inv d) m0)) by (rewrite map_length; lia).
      rewrite map_nth, N by lia. reflexivity.
    Qed.

    Lemma dft_ext w n (a b : nat -> M) i : (forall j, (j < n)%nat -> a j = b j) -> dft F M w n a i = dft F M w n b i.
    Proof. intros H. apply msum_ext. intros j Hj. rewrite H by exact Hj. reflexivity. Qed.

    Lemma dft_scale w n c (a : nat -> M) i : dft F M w n (fun j => mscale c (a j)) i = mscale c (dft F M w n a i).
    Proof.
      unfold dft. rewrite <- msum_scale. apply msum_ext. intros j _. rewrite !mscale_mul. f_equal. ring.
    Qed.

    Lemma ninv_cancel k d (x : M) : dom_ok k d -> mscale (d_n_inv d) (mscale (fnat (2 ^ k)) x) = x.
    Proof.
      intros D. rewrite mscale_mul. replace (fmul (d_n_inv d) (fnat (2 ^ k))) with (f1 : F).
      - apply mscale_1.
      - rewrite <- (do_ninv _ _ D). ring.
    Qed.

    Lemma ifft_fft threads threads' k d (a : list M) : dom_ok k d -> (k <= 32)%nat ->
      (0 < threads)%nat -> (0 < threads')%nat -> length a = (2 ^ k)%nat ->
      exists e, ring_fft threads d a = Some e /\ ring_ifft threads' d e = Some a.
    Proof.
      intros D Hk Ht Ht' Ha. destruct (ring_fft_ok threads k d a D Hk Ht Ha) as (e & E & Le & Ne).
      exists e. split; [exact E|].
      destruct (ifft_raw threads' k d e D Hk Ht' Le) as (r & R & Lr & Nr). rewrite R. f_equal.
      apply (nth_ext _ _ m0 m0); [lia|]. intros i Hi. rewrite Lr in Hi. rewrite Nr by exact Hi.
      rewrite (dft_ext _ _ _ (fun j => dft F M (d_omega d) (2 ^ k) (fun l => nth l a m0) j)).
      - rewrite (dft_inverse F M (d_omega d) (d_omega_inv d) k _ i ta_two_nz (do_half _ _ D) (do_triv _ _ D)
                  (do_omega_inv _ _ D) Hi). apply (ninv_cancel k d); exact D.
      - intros j Hj. rewrite Ne by exact Hj. unfold dft. apply msum_ext. intros l _.
        rewrite <- fpow_mul. do 2 f_equal. lia.
    Qed.

    Lemma fft_ifft threads threads' k d (a : list M) : dom_ok k d -> (k <= 32)%nat ->
      (0 < threads)%nat -> (0 < threads')%nat -> length a = (2 ^ k)%nat ->
      exists c, ring_ifft threads d a = Some c /\ ring_fft threads' d c = Some a.
    Proof.
      intros D Hk Ht Ht' Ha. destruct (ifft_raw threads k d a D Hk Ht Ha) as (c & E & Lc & Nc).
      exists c. split; [exact E|]. unfold ring_fft. rewrite (do_log _ _ D).
      destruct (fft_ok F M threads' c (d_omega d) k Ht' Hk Lc (do_half _ _ D)) as (r & R & Lr & Nr).
      rewrite R. f_equal. apply (nth_ext _ _ m0 m0); [lia|]. intros i Hi. rewrite Lr, Lc in Hi.
      rewrite Nr by lia.
      rewrite (dft_ext _ _ _ (fun j => mscale (d_n_inv d) (dft F M (d_omega_inv d) (2 ^ k) (fun l => nth l a m0) j))).
      - rewrite dft_scale.
        rewrite (dft_inverse F M (d_omega_inv d) (d_omega d) k _ i ta_two_nz (inv_half k d D) (inv_triv k d D)); auto.
        + apply (ninv_cancel k d); exact D.
        + rewrite <- (do_omega_inv _ _ D). ring.
      - intros j Hj. apply Nc. exact Hj.
    Qed.
  End Ring.

  (** Lagrange basis *)
  Lemma ell_denoms_nth omega (x : F) m : forall acc i, (i < m)%nat ->
    nth i (ell_denoms omega x acc m) f0 = fsub x (fmul acc (fpow omega i)).
  Proof.
    induction m as [|m IH]; intros acc i Hi; [lia|]. cbn [ell_denoms].
    destruct i as [|i]; cbn [nth fpow]; [ring|]. rewrite IH by lia. ring.
  Qed.
  Lemma ell_denoms_length omega (x : F) m : forall acc, length (ell_denoms omega x acc m) = m.
  Proof. induction m as [|m IH]; intros acc; cbn; auto. Qed.

  Lemma ell_out_nth omega (dens : list F) : forall num i, (i < length dens)%nat ->
    nth i (ell_out omega num dens) f0 = fmul (fmul num (fpow omega i)) (nth i dens f0).
  Proof.
    induction dens as [|d ds IH]; intros num i Hi; cbn in Hi; [lia|]. cbn [ell_out].
    destruct i as [|i]; cbn [nth fpow]; [ring|]. rewrite IH by lia. ring.
  Qed.
  Lemma ell_out_length omega (dens : list F) : forall num, length (ell_out omega num dens) = length dens.
  Proof. induction dens as [|d ds IH]; intros num; cbn; auto. Qed.

  Lemma diff_pow (x y : F) n :
    fsub (fpow x n) (fpow y n) = fmul (fsub x y) (fsum n (fun t => fmul (fpow x t) (fpow y (n - 1 - t)))).
  Proof.
    induction n as [|n IH]; [cbn; ring|].
    cbn [fsum]. replace (S n - 1 - n)%nat with 0%nat by lia.
    rewrite (fsum_ext F n _ (fun t => fmul y (fmul (fpow x t) (fpow y (n - 1 - t))))).
    - rewrite fsum_scale. cbn [fpow].
      transitivity (fadd (fmul y (fsub (fpow x n) (fpow y n))) (fmul (fsub x y) (fpow x n))); [ring|].
      rewrite IH. ring.
    - intros i Hi. replace (S n - 1 - i)%nat with (S (n - 1 - i)) by lia. cbn [fpow]. ring.
  Qed.

  Lemma ell_ok k d x amount : dom_ok k d -> (amount <= 2 ^ k)%nat ->
    (d_contains d x = true -> ell d x amount = Some None) /\
    (d_contains d x = false -> exists ls,
       ell d x amount = Some (Some ls) /\ length ls = amount /\
       forall i, (i < amount)%nat ->
         nth i ls f0 = fmul (fmul (fmul (fsub (fpow x (2 ^ k)) f1) (d_n_inv d)) (fpow (d_omega d) i))
                            (finv (fsub x (fpow (d_omega d) i)))
         /\ fsub x (fpow (d_omega d) i) <> f0).
  Proof.
    intros D Ham. pose proof (contains_ok k d x D) as HC. unfold d_contains in *. unfold ell.
    rewrite (do_n _ _ D) in *. destruct (Nat.leb_spec amount (2 ^ k)); [|lia].
    split; intros E; rewrite E; [reflexivity|].
    eexists. split; [reflexivity|]. unfold batch_invert.
    split; [rewrite ell_out_length, map_length, ell_denoms_length; reflexivity|].
    intros i Hi. rewrite ell_out_nth by (rewrite map_length, ell_denoms_length; exact Hi).
    assert (NZ : fsub x (fpow (d_omega d) i) <> f0).
    { intros Z. apply (proj1 (fsub_eq_0 F _ _)) in Z.
      assert (Htrue : feqb (fpow x (2 ^ k)) f1 = true) by (apply HC; exists i; split; [lia|exact Z]).
      congruence. }
    split; [|exact NZ]. f_equal.
    set (g := fun x : F => if feqb x f0 then x else finv x).
    rewrite (nth_indep _ f0 (g f0))
      by (rewrite map_length, ell_denoms_length; exact Hi).
    rewrite map_nth, ell_denoms_nth by exact Hi.
    replace (fsub x (fmul f1 (fpow (d_omega d) i))) with (fsub x (fpow (d_omega d) i)) by ring.
    unfold g. apply feqb_false in NZ. rewrite NZ. reflexivity.
  Qed.

  (** the interpolation property: evaluating through the basis gives p(x) *)
  Lemma ell_interp k d x ls : dom_ok k d -> ell d x (2 ^ k) = Some (Some ls) ->
    forall p : list F, (length p <= 2 ^ k)%nat ->
      fsum (2 ^ k) (fun i => fmul (peval p (fpow (d_omega d) i)) (nth i ls f0)) = peval p x.
  Proof.
    intros D HE p Hp. destruct (ell_ok k d x (2 ^ k) D (Nat.le_refl _)) as [E1 E2].
    destruct (d_contains d x) eqn:EC.
    { rewrite E1 in HE by reflexivity. discriminate. }
    destruct (E2 eq_refl) as (ls' & HE' & Ll & Nl). rewrite HE in HE'. inversion HE'; subst ls'. clear HE' E1 E2.
    set (n := (2 ^ k)%nat) in *. pose proof (dom_pow_n k d D) as Hn. fold n in Hn.
    assert (P0 : (0 < n)%nat) by (unfold n; pose proof (Nat.pow_nonzero 2 k); lia).
    assert (Hl : forall i, (i < n)%nat -> nth i ls f0
       = fmul (d_n_inv d) (fsum n (fun t => fmul (fpow x t) (fpow (d_omega d) (i * (n - t)))))).
    { intros i Hi. destruct (Nl i Hi) as [-> NZ].
      pose proof (diff_pow x (fpow (d_omega d) i) n) as DP.
      rewrite <- (fpow_mul F (d_omega d) i n), (Nat.mul_comm i n), (fpow_mul F (d_omega d) n i), Hn, fpow_one in DP.
      rewrite DP.
      rewrite (fsum_ext F n (fun t => fmul (fpow x t) (fpow (d_omega d) (i * (n - t))))
                (fun t => fmul (fpow (d_omega d) i) (fmul (fpow x t) (fpow (fpow (d_omega d) i) (n - 1 - t))))).
      - rewrite fsum_scale. field. exact NZ.
      - intros t Ht. rewrite <- fpow_mul.
        replace (i * (n - t))%nat with (i + i * (n - 1 - t))%nat by nia. rewrite fpow_add. ring. }
    rewrite (fsum_ext F n _ (fun i => fsum n (fun m => fsum n (fun t =>
       fmul (fmul (d_n_inv d) (fmul (nth m p f0) (fpow x t))) (fpow (d_omega d) (i * (m + (n - t)))))))).
    2:{ intros i Hi. rewrite Hl by exact Hi. rewrite (peval_nth_ge F p n) by exact Hp.
        rewrite <- fsum_scale_r. apply fsum_ext. intros m Hm.
        rewrite <- fsum_scale, <- fsum_scale. apply fsum_ext. intros t Ht.
        rewrite Nat.mul_add_distr_l, fpow_add, <- fpow_mul. ring. }
    rewrite fsum_swap.
    rewrite (peval_nth_ge F p n) by exact Hp. apply fsum_ext. intros m Hm.
    rewrite fsum_swap.
    rewrite (fsum_ext F n _ (fun t => fmul (fmul (d_n_inv d) (fmul (nth m p f0) (fpow x t)))
               (if ((m + (n - t)) mod n =? 0)%nat then fnat n else f0))).
    2:{ intros t Ht. rewrite fsum_scale. f_equal.
        apply (orth F (d_omega d) k); [apply ta_two_nz|apply (do_half _ _ D)|apply (do_triv _ _ D)]. }
    rewrite (fsum_single F n m).
    - replace (m + (n - m))%nat with n by lia. rewrite Nat.mod_same by lia. cbn [Nat.eqb].
      pose proof (do_ninv _ _ D) as HN. fold n in HN.
      transitivity (fmul (fmul (fnat n) (d_n_inv d)) (fmul (nth m p f0) (fpow x m))); [ring|].
      rewrite HN. ring.
    - exact Hm.
    - intros t Ht Hne. destruct (Nat.eqb_spec ((m + (n - t)) mod n) 0) as [E|E]; [|ring].
      exfalso. apply Nat.mod_divide in E; [|lia]. destruct E as [q Hq].
      assert (q = 1 \/ q = 0 \/ 2 <= q)%nat by lia. nia.
  Qed.
End DomP.
