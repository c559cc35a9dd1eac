(** Proofs about PrimModel.v: the limb arrays refine integers modulo 2^B. *)
From Coq Require Import List Arith NArith Bool Lia.
From Verif Require Import FieldDef ArithModel GadgetModel FFTModel CircProofs2 PrimModel.
Import ListNotations.
Local Open Scope nat_scope.

(** ** specification: the integer a limb array stands for *)
Definition u_val (a : list N) : N := fold_right (fun x acc => (x + 2 ^ 64 * acc)%N) 0%N a.
Definition u_canonical (B : nat) (a : list N) : Prop :=
  length a = limbs_n B /\ Forall (fun x => (x < 2 ^ 64)%N) a /\ (u_val a < 2 ^ N.of_nat B)%N.

Definition tb (v : N) (k : nat) : bool := N.testbit v (N.of_nat k).

Lemma tb_ext a b : (forall k, tb a k = tb b k) -> a = b.
Proof. intros H. apply N.bits_inj. intros k. specialize (H (N.to_nat k)). unfold tb in H. rewrite N2Nat.id in H. exact H. Qed.
Lemma tb_lt v n : (forall k, n <= k -> tb v k = false) <-> (v < 2 ^ N.of_nat n)%N.
Proof.
  split.
  - intros H. assert (E : v = (v mod 2 ^ N.of_nat n)%N).
    { apply tb_ext. intros k. unfold tb. destruct (Nat.lt_ge_cases k n).
      - rewrite N.mod_pow2_bits_low by lia. reflexivity.
      - rewrite N.mod_pow2_bits_high by lia. apply H. exact H0. }
    rewrite E. apply N.mod_lt. apply N.pow_nonzero. lia.
  - intros H k Hk. unfold tb. destruct (N.eq_dec v 0) as [->|Z]; [apply N.bits_0|].
    apply N.bits_above_log2. apply N.log2_lt_pow2; [lia|]. eapply N.lt_le_trans; [exact H|]. apply N.pow_le_mono_r; lia.
Qed.
Lemma tb_0 k : tb 0 k = false. Proof. apply N.bits_0. Qed.
Lemma tb_land a b k : tb (N.land a b) k = tb a k && tb b k. Proof. apply N.land_spec. Qed.
Lemma tb_lor a b k : tb (N.lor a b) k = tb a k || tb b k. Proof. apply N.lor_spec. Qed.
Lemma tb_ones n k : tb (N.ones (N.of_nat n)) k = (k <? n).
Proof.
  unfold tb. destruct (Nat.ltb_spec k n); [rewrite N.ones_spec_low by lia|rewrite N.ones_spec_high by lia]; reflexivity.
Qed.
Lemma tb_max k : tb u64_max k = (k <? 64). Proof. apply (tb_ones 64). Qed.
Lemma tb_shr x s k : tb (shr64 x s) k = tb x (k + s).
Proof. unfold tb, shr64. rewrite N.shiftr_spec by lia. f_equal. lia. Qed.
Lemma tb_shiftl x s k : tb (N.shiftl x (N.of_nat s)) k = (s <=? k) && tb x (k - s).
Proof.
  unfold tb. destruct (Nat.leb_spec s k).
  - rewrite N.shiftl_spec_high by lia. cbn [andb]. f_equal. lia.
  - rewrite N.shiftl_spec_low by lia. reflexivity.
Qed.
Lemma tb_shl x s k : tb (shl64 x s) k = (k <? 64) && ((s <=? k) && tb x (k - s)).
Proof. unfold shl64. rewrite tb_land, tb_max, tb_shiftl. apply andb_comm. Qed.

Lemma tb_cons x acc k : (x < 2 ^ 64)%N -> tb (x + 2 ^ 64 * acc) k = if k <? 64 then tb x k else tb acc (k - 64).
Proof.
  intros H. unfold tb. destruct (Nat.ltb_spec k 64).
  - rewrite <- (N.mod_pow2_bits_low (x + 2 ^ 64 * acc) 64) by lia.
    rewrite N.mul_comm, N.mod_add by (apply N.pow_nonzero; lia). rewrite N.mod_small by exact H. reflexivity.
  - replace (N.of_nat k) with (N.of_nat (k - 64) + 64)%N by lia. rewrite <- N.div_pow2_bits.
    rewrite N.mul_comm, N.div_add by (apply N.pow_nonzero; lia). rewrite N.div_small by exact H. reflexivity.
Qed.
Lemma tb_val a : Forall (fun x => (x < 2 ^ 64)%N) a -> forall k, tb (u_val a) k = tb (nth (k / 64) a 0%N) (k mod 64).
Proof.
  induction 1 as [|x a Hx Ha IH]; intros k.
  - cbn [u_val fold_right]. rewrite tb_0. destruct (k / 64); rewrite tb_0; reflexivity.
  - cbn [u_val fold_right]. change (fold_right (fun x acc => (x + 2 ^ 64 * acc)%N) 0%N a) with (u_val a).
    rewrite tb_cons by exact Hx. destruct (Nat.ltb_spec k 64).
    + rewrite Nat.div_small, Nat.mod_small by lia. reflexivity.
    + rewrite IH. assert (E : k = (k - 64) + 1 * 64) by lia.
      rewrite E at 3 4. rewrite Nat.div_add, Nat.mod_add by lia. rewrite Nat.add_1_r. reflexivity.
Qed.
(** a number is given by its limbs *)
Lemma limb_lt x : (forall k, 64 <= k -> tb x k = false) -> (x < 2 ^ 64)%N.
Proof. intros H. apply (tb_lt x 64). exact H. Qed.
Lemma limb_hi x k : (x < 2 ^ 64)%N -> 64 <= k -> tb x k = false.
Proof. intros H. apply (tb_lt x 64). exact H. Qed.

(** ** the limb loops *)
Section Loop.
  Variables (step : list N -> nat -> list N) (f : nat -> N -> N).
  Hypothesis step_ok : forall r t, t < length r -> length (step r t) = length r /\
    forall j, nth j (step r t) 0%N = if j =? t then f t (nth t r 0%N) else nth j r 0%N.
  Lemma loop_nth m : forall a z, a + m <= length z ->
    length (fold_left step (seq a m) z) = length z /\
    forall j, nth j (fold_left step (seq a m) z) 0%N =
      if (a <=? j) && (j <? a + m) then f j (nth j z 0%N) else nth j z 0%N.
  Proof.
    induction m as [|m IH]; intros a z H; cbn [seq fold_left].
    - split; [reflexivity|]. intros j. destruct (Nat.leb_spec a j), (Nat.ltb_spec j (a + 0)); cbn [andb]; try reflexivity; lia.
    - destruct (step_ok z a) as [L V]; [lia|]. destruct (IH (S a) (step z a)) as [L' V']; [lia|].
      split; [lia|]. intros j. rewrite V', V.
      destruct (Nat.leb_spec (S a) j), (Nat.ltb_spec j (S a + m)), (Nat.leb_spec a j), (Nat.ltb_spec j (a + S m)), (Nat.eqb_spec j a);
        cbn [andb]; subst; try reflexivity; lia.
  Qed.
End Loop.

Lemma upd_len {A : Type} (l : list A) i v : length (upd l i v) = length l.
Proof. revert i. induction l as [|x l IH]; intros [|i]; cbn; auto. Qed.
Lemma nth_upd_lt (l : list N) i v j : i < length l -> nth j (upd l i v) 0%N = if j =? i then v else nth j l 0%N.
Proof.
  revert i j. induction l as [|x l IH]; intros i j H; [cbn in H; lia|].
  destruct i as [|i], j as [|j]; cbn; try reflexivity. apply IH. cbn in H. lia.
Qed.
Lemma nth_rep0 n j : nth j (repeat 0%N n) 0%N = 0%N.
Proof. revert j. induction n as [|n IH]; intros [|j]; cbn; auto. Qed.

Section U.
  Variable B : nat.
  Hypothesis HB : 128 < B.
  Hypothesis HM : B mod 64 <> 0.
  Local Notation L := (limbs_n B).

  Lemma L_eq : L = B / 64 + 1.
  Proof.
    unfold limbs_n. pose proof (Nat.div_mod_eq B 64). pose proof (Nat.mod_upper_bound B 64).
    replace (B + 63) with ((B mod 64 + 63) + (B / 64) * 64) by lia. rewrite Nat.div_add by lia.
    replace ((B mod 64 + 63) / 64) with 1; [lia|]. apply Nat.div_unique with (r := B mod 64 - 1); lia.
  Qed.
  Lemma L_ge : 3 <= L.
  Proof. rewrite L_eq. assert (2 <= B / 64) by (apply Nat.div_le_lower_bound; lia). lia. Qed.
  Lemma mask_bit k : tb (norm_mask B) k = (k <? B mod 64).
  Proof.
    unfold norm_mask. rewrite tb_shr, tb_max. pose proof (Nat.mod_upper_bound B 64).
    destruct (Nat.ltb_spec k (B mod 64)), (Nat.ltb_spec (k + (64 - B mod 64)) 64); auto; lia.
  Qed.
  Lemma zero_len : length (u_zero B) = L. Proof. apply repeat_length. Qed.
  Lemma zero_nth j : nth j (u_zero B) 0%N = 0%N. Proof. apply nth_rep0. Qed.

  (** shape: right number of limbs, each of 64 bits *)
  Definition shaped (a : list N) : Prop := length a = L /\ Forall (fun x => (x < 2 ^ 64)%N) a.
  Lemma shaped_nth a : length a = L -> (forall j, (nth j a 0%N < 2 ^ 64)%N) -> shaped a.
  Proof.
    intros H V. split; [exact H|]. apply Forall_forall. intros x Hx. apply In_nth with (d := 0%N) in Hx.
    destruct Hx as (j & _ & <-). apply V.
  Qed.
  Lemma shaped_lt a j : shaped a -> (nth j a 0%N < 2 ^ 64)%N.
  Proof.
    intros [_ Fa]. destruct (Nat.lt_ge_cases j (length a)).
    - rewrite Forall_forall in Fa. apply Fa. apply nth_In. exact H.
    - rewrite nth_overflow by exact H. reflexivity.
  Qed.
  Lemma shaped_top a k : shaped a -> L * 64 <= k -> tb (u_val a) k = false.
  Proof.
    intros [H Fa] Hk. rewrite tb_val by exact Fa. rewrite nth_overflow; [apply tb_0|].
    rewrite H. apply Nat.div_le_lower_bound; lia.
  Qed.
  Lemma canon_shaped a : u_canonical B a -> shaped a. Proof. intros (A & F & _). split; assumption. Qed.
  Lemma canon_hi a k : u_canonical B a -> B <= k -> tb (u_val a) k = false.
  Proof. intros (_ & _ & V). apply (tb_lt (u_val a) B). exact V. Qed.
  Lemma canon_of a : shaped a -> (forall k, B <= k -> tb (u_val a) k = false) -> u_canonical B a.
  Proof. intros [A F] V. split; [exact A|]. split; [exact F|]. apply tb_lt. exact V. Qed.

  Lemma zero_canon : u_canonical B (u_zero B) /\ u_val (u_zero B) = 0%N.
  Proof.
    assert (S : shaped (u_zero B)) by (apply shaped_nth; [apply zero_len|intros j; rewrite zero_nth; reflexivity]).
    assert (Z : u_val (u_zero B) = 0%N) by (apply tb_ext; intros k; rewrite tb_val by apply S; rewrite zero_nth, !tb_0; reflexivity).
    split; [apply canon_of; [exact S|]; intros k _; rewrite Z; apply tb_0|exact Z].
  Qed.

  (** [normalized] reduces modulo 2^B *)
  Lemma normalized_ok a : shaped a ->
    u_canonical B (u_normalized B a) /\ forall k, tb (u_val (u_normalized B a)) k = (k <? B) && tb (u_val a) k.
  Proof.
    intros S. pose proof L_ge. pose proof L_eq as LE.
    assert (V : forall j, nth j (u_normalized B a) 0%N = if j =? L - 1 then N.land (nth j a 0%N) (norm_mask B) else nth j a 0%N).
    { intros j. unfold u_normalized. rewrite nth_upd_lt by (destruct S; lia). destruct (Nat.eqb_spec j (L - 1)); subst; reflexivity. }
    assert (S' : shaped (u_normalized B a)).
    { apply shaped_nth; [unfold u_normalized; rewrite upd_len; apply S|]. intros j. rewrite V. apply limb_lt. intros k Hk.
      destruct (j =? L - 1); [rewrite tb_land|]; rewrite (limb_hi (nth j a 0%N) k (shaped_lt a j S) Hk); reflexivity. }
    assert (Bits : forall k, tb (u_val (u_normalized B a)) k = (k <? B) && tb (u_val a) k).
    { intros k. rewrite !tb_val by (apply S' || apply S). rewrite V.
      pose proof (Nat.div_mod_eq k 64). pose proof (Nat.mod_upper_bound k 64). pose proof (Nat.div_mod_eq B 64).
      destruct (Nat.eqb_spec (k / 64) (L - 1)).
      - rewrite tb_land, mask_bit, andb_comm. f_equal. destruct (Nat.ltb_spec (k mod 64) (B mod 64)), (Nat.ltb_spec k B); auto; lia.
      - destruct (Nat.ltb_spec k B); cbn [andb]; [reflexivity|]. rewrite nth_overflow; [apply tb_0|]. destruct S as [-> _].
        assert (k / 64 >= B / 64) by (apply Nat.div_le_mono; lia). lia. }
    split; [|exact Bits]. apply canon_of; [exact S'|]. intros k Hk. rewrite Bits. destruct (Nat.ltb_spec k B); [lia|reflexivity].
  Qed.

  Lemma from_u64_ok v : (v < 2 ^ 64)%N -> u_canonical B (u_from_u64 B v) /\ u_val (u_from_u64 B v) = v.
  Proof.
    intros H. pose proof L_ge. unfold u_from_u64.
    assert (V : forall j, nth j (upd (u_zero B) 0 v) 0%N = if j =? 0 then v else 0%N).
    { intros j. rewrite nth_upd_lt by (rewrite zero_len; lia). rewrite zero_nth. reflexivity. }
    assert (S : shaped (upd (u_zero B) 0 v)).
    { apply shaped_nth; [rewrite upd_len; apply zero_len|]. intros j. rewrite V. destruct (j =? 0); [exact H|reflexivity]. }
    assert (E : u_val (upd (u_zero B) 0 v) = v).
    { apply tb_ext. intros k. rewrite tb_val by apply S. rewrite V. destruct (Nat.eqb_spec (k / 64) 0) as [Z|Z].
      - apply Nat.div_small_iff in Z; [|lia]. rewrite Nat.mod_small by exact Z. reflexivity.
      - rewrite tb_0. symmetry. apply limb_hi; [exact H|]. destruct (Nat.lt_ge_cases k 64); [|assumption].
        rewrite Nat.div_small in Z by assumption. lia. }
    split; [|exact E]. split; [apply S|]. split; [apply S|]. rewrite E. eapply N.lt_le_trans; [exact H|].
    apply N.pow_le_mono_r; lia.
  Qed.
  Lemma from_u128_ok v : (v < 2 ^ 128)%N -> u_canonical B (u_from_u128 B v) /\ u_val (u_from_u128 B v) = v.
  Proof.
    intros H. pose proof L_ge. unfold u_from_u128. set (lo := N.land v u64_max). set (hi := N.land (N.shiftr v 64) u64_max).
    assert (V : forall j, nth j (upd (upd (u_zero B) 0 lo) 1 hi) 0%N = if j =? 1 then hi else if j =? 0 then lo else 0%N).
    { intros j. rewrite nth_upd_lt by (rewrite upd_len, zero_len; lia). rewrite nth_upd_lt by (rewrite zero_len; lia).
      rewrite zero_nth. reflexivity. }
    assert (Blo : forall k, tb lo k = (k <? 64) && tb v k) by (intros k; unfold lo; rewrite tb_land, tb_max; apply andb_comm).
    assert (Bhi : forall k, tb hi k = (k <? 64) && tb v (k + 64)).
    { intros k. unfold hi. rewrite tb_land, tb_max, andb_comm. f_equal. apply (tb_shr v 64). }
    assert (S : shaped (upd (upd (u_zero B) 0 lo) 1 hi)).
    { apply shaped_nth; [rewrite !upd_len; apply zero_len|]. intros j. rewrite V. apply limb_lt. intros k Hk.
      destruct (j =? 1); [rewrite Bhi|destruct (j =? 0); [rewrite Blo|apply tb_0]]; destruct (Nat.ltb_spec k 64); auto; lia. }
    assert (E : u_val (upd (upd (u_zero B) 0 lo) 1 hi) = v).
    { apply tb_ext. intros k. rewrite tb_val by apply S. rewrite V.
      pose proof (Nat.div_mod_eq k 64). pose proof (Nat.mod_upper_bound k 64).
      destruct (Nat.eqb_spec (k / 64) 1); [|destruct (Nat.eqb_spec (k / 64) 0)].
      - rewrite Bhi. destruct (Nat.ltb_spec (k mod 64) 64); [|lia]. cbn [andb]. f_equal. lia.
      - rewrite Blo. destruct (Nat.ltb_spec (k mod 64) 64); [|lia]. cbn [andb]. f_equal. lia.
      - rewrite tb_0. symmetry. apply (proj2 (tb_lt v 128)); [exact H|]. lia. }
    split; [|exact E]. split; [apply S|]. split; [apply S|]. rewrite E. eapply N.lt_le_trans; [exact H|].
    apply N.pow_le_mono_r; lia.
  Qed.

  (** pointwise loops over all limbs *)
  Lemma point_ok (f : nat -> N -> N) (z : list N) : length z = L ->
    length (fold_left (fun r i => upd r i (f i (nth i r 0%N))) (seq 0 L) z) = L /\
    forall j, j < L -> nth j (fold_left (fun r i => upd r i (f i (nth i r 0%N))) (seq 0 L) z) 0%N = f j (nth j z 0%N).
  Proof.
    intros H. destruct (loop_nth (fun r i => upd r i (f i (nth i r 0%N))) f) with (m := L) (a := 0) (z := z) as [A V].
    - intros r t Ht. split; [apply upd_len|]. intros j. apply nth_upd_lt. exact Ht.
    - lia.
    - split; [lia|]. intros j Hj. rewrite V. destruct (Nat.ltb_spec j (0 + L)); [reflexivity|lia].
  Qed.
  Lemma bits_loop (g : N -> N -> N) (h : bool -> bool -> bool) a b (r : list N) :
    (forall x y k, tb (g x y) k = h (tb x k) (tb y k)) -> h false false = false ->
    shaped a -> shaped b -> length r = L -> (forall j, j < L -> nth j r 0%N = g (nth j a 0%N) (nth j b 0%N)) ->
    shaped r /\ forall k, tb (u_val r) k = h (tb (u_val a) k) (tb (u_val b) k).
  Proof.
    intros Hg H0 Sa Sb Lr V.
    assert (S : shaped r).
    { apply shaped_nth; [exact Lr|]. intros j. destruct (Nat.lt_ge_cases j L); [|rewrite nth_overflow by lia; reflexivity].
      apply limb_lt. intros k Hk. rewrite V, Hg by assumption.
      rewrite (limb_hi _ k (shaped_lt a j Sa) Hk), (limb_hi _ k (shaped_lt b j Sb) Hk). exact H0. }
    split; [exact S|]. intros k. rewrite !tb_val by (apply S || apply Sa || apply Sb).
    destruct (Nat.lt_ge_cases (k / 64) L); [rewrite V by assumption; apply Hg|].
    rewrite !nth_overflow by (destruct Sa, Sb; lia). rewrite tb_0, H0. reflexivity.
  Qed.
  Lemma and_ok a b : u_canonical B a -> u_canonical B b ->
    u_canonical B (u_and B a b) /\ u_val (u_and B a b) = N.land (u_val a) (u_val b).
  Proof.
    intros Ca Cb. destruct (point_ok (fun i _ => N.land (nth i a 0%N) (nth i b 0%N)) (u_zero B) zero_len) as [Lr V].
    destruct (bits_loop N.land andb a b (u_and B a b)) as [S Bt]; auto using canon_shaped; [intros; apply tb_land|].
    split.
    - apply canon_of; [exact S|]. intros k Hk. rewrite Bt, (canon_hi a k Ca Hk). reflexivity.
    - apply tb_ext. intros k. rewrite Bt, tb_land. reflexivity.
  Qed.
  Lemma or_ok a b : u_canonical B a -> u_canonical B b ->
    u_canonical B (u_or B a b) /\ u_val (u_or B a b) = N.lor (u_val a) (u_val b).
  Proof.
    intros Ca Cb. destruct (point_ok (fun i _ => N.lor (nth i a 0%N) (nth i b 0%N)) (u_zero B) zero_len) as [Lr V].
    destruct (bits_loop N.lor orb a b (u_or B a b)) as [S Bt]; auto using canon_shaped; [intros; apply tb_lor|].
    split.
    - apply canon_of; [exact S|]. intros k Hk. rewrite Bt, (canon_hi a k Ca Hk), (canon_hi b k Cb Hk). reflexivity.
    - apply tb_ext. intros k. rewrite Bt, tb_lor. reflexivity.
  Qed.
  Lemma or_assign_ok a b : u_canonical B a -> u_canonical B b ->
    u_canonical B (u_or_assign B a b) /\ u_val (u_or_assign B a b) = N.lor (u_val a) (u_val b).
  Proof.
    intros Ca Cb. destruct (point_ok (fun i x => N.lor x (nth i b 0%N)) a (proj1 Ca)) as [Lr V].
    destruct (bits_loop N.lor orb a b (u_or_assign B a b)) as [S Bt]; auto using canon_shaped; [intros; apply tb_lor|].
    split.
    - apply canon_of; [exact S|]. intros k Hk. rewrite Bt, (canon_hi a k Ca Hk), (canon_hi b k Cb Hk). reflexivity.
    - apply tb_ext. intros k. rewrite Bt, tb_lor. reflexivity.
  Qed.

  Lemma sample_ok (random : nat -> N) : (forall i, (random i < 2 ^ 64)%N) ->
    u_canonical B (u_sample B random) /\
    u_val (u_sample B random) = (u_val (map random (seq 0 L)) mod 2 ^ N.of_nat B)%N.
  Proof.
    intros H. destruct (point_ok (fun i _ => random i) (repeat 0%N L) (repeat_length _ _)) as [Lr V].
    set (r := fold_left _ _ _) in *.
    assert (E : r = map random (seq 0 L)).
    { apply nth_ext with (d := 0%N) (d' := 0%N); [rewrite map_length, seq_length; exact Lr|]. intros j Hj. rewrite V by lia.
      rewrite nth_indep with (d' := random 0) by (rewrite map_length, seq_length; lia).
      rewrite map_nth, seq_nth by lia. reflexivity. }
    assert (S : shaped r).
    { rewrite E. split; [rewrite map_length, seq_length; reflexivity|]. apply Forall_forall. intros x Hx.
      apply in_map_iff in Hx. destruct Hx as (i & <- & _). apply H. }
    destruct (normalized_ok r S) as [C Bt]. unfold u_sample. fold r. split; [exact C|].
    rewrite <- E. apply tb_ext. intros k. rewrite Bt. unfold tb. destruct (Nat.ltb_spec k B).
    - rewrite N.mod_pow2_bits_low by lia. reflexivity.
    - rewrite N.mod_pow2_bits_high by lia. reflexivity.
  Qed.

  Lemma eqb_ok a b : u_canonical B a -> u_canonical B b -> u_eqb a b = true <-> u_val a = u_val b.
  Proof.
    intros (La & Fa & _) (Lb & Fb & _).
    assert (E : u_eqb a b = true <-> a = b).
    { clear. revert b. induction a as [|x a IH]; intros [|y b]; cbn; split; try discriminate; auto.
      - intros H. apply andb_true_iff in H. destruct H as [P Q]. apply N.eqb_eq in P. apply IH in Q. congruence.
      - intros H. injection H as -> ->. rewrite N.eqb_refl. cbn. apply IH. reflexivity. }
    rewrite E. split; [congruence|]. intros V. apply nth_ext with (d := 0%N) (d' := 0%N); [lia|]. intros j _.
    apply tb_ext. intros m. destruct (Nat.lt_ge_cases m 64).
    - assert (Q : forall l, Forall (fun x => (x < 2 ^ 64)%N) l -> tb (nth j l 0%N) m = tb (u_val l) (m + j * 64)).
      { intros l Fl. rewrite tb_val by exact Fl. rewrite Nat.div_add, Nat.mod_add by lia.
        rewrite Nat.div_small, Nat.mod_small by lia. reflexivity. }
      rewrite !Q by assumption. rewrite V. reflexivity.
    - rewrite !limb_hi; auto; eapply shaped_lt; split; eassumption.
  Qed.

  Lemma shl_ok a r : u_canonical B a ->
    u_canonical B (u_shl B a r) /\ u_val (u_shl B a r) = (u_val a * 2 ^ N.of_nat r mod 2 ^ N.of_nat B)%N.
  Proof.
    intros C. assert (Sa : shaped a) by (apply canon_shaped; exact C).
    assert (Goal : u_canonical B (u_shl B a r) /\ forall k, tb (u_val (u_shl B a r)) k = (k <? B) && ((r <=? k) && tb (u_val a) (k - r))).
    { unfold u_shl. destruct (Nat.leb_spec B r) as [G|G].
      - destruct zero_canon as [Z1 Z2]. split; [exact Z1|]. intros k. rewrite Z2, tb_0.
        destruct (Nat.ltb_spec k B), (Nat.leb_spec r k); cbn [andb]; auto; lia.
      - set (ls := r / 64). set (bs := r mod 64).
        assert (Hr : r = 64 * ls + bs) by apply Nat.div_mod_eq. assert (Hbs : bs < 64) by (apply Nat.mod_upper_bound; lia).
        pose proof L_ge. pose proof L_eq as LE. pose proof (Nat.div_mod_eq B 64). pose proof (Nat.mod_upper_bound B 64).
        assert (Hls : ls < L) by (rewrite LE; assert (ls <= B / 64) by (apply Nat.div_le_mono; lia); lia).
        set (f := fun t (_ : N) => if (0 <? bs) && (0 <? t - ls)
                   then N.lor (shl64 (nth (t - ls) a 0%N) bs) (shr64 (nth (t - ls - 1) a 0%N) (64 - bs))
                   else shl64 (nth (t - ls) a 0%N) bs).
        match goal with |- u_canonical B (u_normalized B (fold_left ?st ?sq ?z)) /\ _ => set (step := st) end.
        destruct (loop_nth step f) with (m := L - ls) (a := ls) (z := u_zero B) as [Lr V].
        { intros q t Ht. unfold step, f. destruct ((0 <? bs) && (0 <? t - ls)).
          - split; [rewrite !upd_len; reflexivity|]. intros j. rewrite nth_upd_lt by (rewrite upd_len; exact Ht).
            rewrite !nth_upd_lt by exact Ht. rewrite Nat.eqb_refl. destruct (j =? t); reflexivity.
          - split; [apply upd_len|]. intros j. apply nth_upd_lt. exact Ht. }
        { rewrite zero_len. lia. }
        set (res := fold_left step (seq ls (L - ls)) (u_zero B)) in *.
        assert (V' : forall j m, m < 64 -> tb (nth j res 0%N) m = (j <? L) && ((r <=? 64 * j + m) && tb (u_val a) (64 * j + m - r))).
        { intros j m Hm. rewrite V, zero_nth. replace (ls + (L - ls)) with L by lia.
          destruct (Nat.ltb_spec j L); [|rewrite andb_false_r; apply tb_0]. rewrite andb_true_r. cbn [andb].
          destruct (Nat.leb_spec ls j) as [J|J].
          - unfold f. destruct (Nat.leb_spec bs m) as [M|M].
            + destruct (Nat.leb_spec r (64 * j + m)); [|lia]. cbn [andb].
              assert (Q : tb (shl64 (nth (j - ls) a 0%N) bs) m = tb (u_val a) (64 * j + m - r)).
              { rewrite tb_shl. destruct (Nat.ltb_spec m 64); [|lia]. destruct (Nat.leb_spec bs m); [|lia]. cbn [andb].
                rewrite tb_val by apply Sa. replace (64 * j + m - r) with ((m - bs) + (j - ls) * 64) by lia.
                rewrite Nat.div_add, Nat.mod_add by lia. rewrite Nat.div_small, Nat.mod_small by lia. reflexivity. }
              destruct ((0 <? bs) && (0 <? j - ls)); [|exact Q]. rewrite tb_lor, Q, tb_shr.
              rewrite (limb_hi _ (m + (64 - bs)) (shaped_lt a _ Sa)) by lia. apply orb_false_r.
            + assert (P : tb (shl64 (nth (j - ls) a 0%N) bs) m = false).
              { rewrite tb_shl. destruct (Nat.leb_spec bs m); [lia|]. apply andb_false_r. }
              destruct (Nat.ltb_spec 0 bs); [|lia]. cbn [andb]. destruct (Nat.ltb_spec 0 (j - ls)) as [J'|J'].
              * destruct (Nat.leb_spec r (64 * j + m)); [|lia]. cbn [andb]. rewrite tb_lor, P, tb_shr. cbn [orb].
                rewrite tb_val by apply Sa. replace (64 * j + m - r) with ((m + (64 - bs)) + (j - ls - 1) * 64) by lia.
                rewrite Nat.div_add, Nat.mod_add by lia. rewrite Nat.div_small, Nat.mod_small by lia. reflexivity.
              * rewrite P. destruct (Nat.leb_spec r (64 * j + m)); [lia|reflexivity].
          - rewrite tb_0. destruct (Nat.leb_spec r (64 * j + m)); [lia|reflexivity]. }
        assert (S : shaped res).
        { apply shaped_nth; [rewrite Lr; apply zero_len|]. intros j. apply limb_lt. intros k Hk. rewrite V, zero_nth.
          destruct ((ls <=? j) && (j <? ls + (L - ls))); [|apply tb_0]. unfold f.
          assert (P : forall x, tb (shl64 x bs) k = false) by (intros x; rewrite tb_shl; destruct (Nat.ltb_spec k 64); [lia|reflexivity]).
          destruct ((0 <? bs) && (0 <? j - ls)); [|apply P]. rewrite tb_lor, P, tb_shr. apply limb_hi; [apply shaped_lt; exact Sa|lia]. }
        destruct (normalized_ok res S) as [Cn Bt]. split; [exact Cn|]. intros k. rewrite Bt. destruct (Nat.ltb_spec k B) as [K|K]; [|reflexivity]. cbn [andb].
        rewrite tb_val by apply S. pose proof (Nat.div_mod_eq k 64). pose proof (Nat.mod_upper_bound k 64).
        rewrite V' by lia. replace (64 * (k / 64) + k mod 64) with k by lia.
        assert (k / 64 <= B / 64) by (apply Nat.div_le_mono; lia).
        destruct (Nat.ltb_spec (k / 64) L); [reflexivity|lia]. }
    destruct Goal as [G1 G2]. split; [exact G1|]. apply tb_ext. intros k. rewrite G2.
    unfold tb at 2. rewrite <- N.shiftl_mul_pow2. destruct (Nat.ltb_spec k B).
    - rewrite N.mod_pow2_bits_low by lia. cbn [andb]. symmetry. apply tb_shiftl.
    - rewrite N.mod_pow2_bits_high by lia. reflexivity.
  Qed.

  Lemma shr_ok a r : u_canonical B a ->
    u_canonical B (u_shr B a r) /\ u_val (u_shr B a r) = (u_val a / 2 ^ N.of_nat r)%N.
  Proof.
    intros C. assert (Sa : shaped a) by (apply canon_shaped; exact C).
    assert (Goal : u_canonical B (u_shr B a r) /\ forall k, tb (u_val (u_shr B a r)) k = tb (u_val a) (k + r)).
    { unfold u_shr. destruct (Nat.leb_spec B r) as [G|G].
      - destruct zero_canon as [Z1 Z2]. split; [exact Z1|]. intros k. rewrite Z2, tb_0. symmetry. apply canon_hi; [exact C|lia].
      - set (ls := r / 64). set (bs := r mod 64).
        assert (Hr : r = 64 * ls + bs) by apply Nat.div_mod_eq. assert (Hbs : bs < 64) by (apply Nat.mod_upper_bound; lia).
        pose proof L_ge. pose proof L_eq as LE. pose proof (Nat.div_mod_eq B 64). pose proof (Nat.mod_upper_bound B 64).
        assert (Hls : ls < L) by (rewrite LE; assert (ls <= B / 64) by (apply Nat.div_le_mono; lia); lia).
        set (f := fun t (_ : N) => if (0 <? bs) && (t + ls + 1 <? L)
                   then N.lor (shr64 (nth (t + ls) a 0%N) bs) (shl64 (nth (t + ls + 1) a 0%N) (64 - bs))
                   else shr64 (nth (t + ls) a 0%N) bs).
        match goal with |- u_canonical B (fold_left ?st ?sq ?z) /\ _ => set (step := st) end.
        destruct (loop_nth step f) with (m := L - ls) (a := 0) (z := u_zero B) as [Lr V].
        { intros q t Ht. unfold step, f. destruct ((0 <? bs) && (t + ls + 1 <? L)).
          - split; [rewrite !upd_len; reflexivity|]. intros j. rewrite nth_upd_lt by (rewrite upd_len; exact Ht).
            rewrite !nth_upd_lt by exact Ht. rewrite Nat.eqb_refl. destruct (j =? t); reflexivity.
          - split; [apply upd_len|]. intros j. apply nth_upd_lt. exact Ht. }
        { rewrite zero_len. lia. }
        set (res := fold_left step (seq 0 (L - ls)) (u_zero B)) in *.
        assert (V' : forall j m, m < 64 -> tb (nth j res 0%N) m = tb (u_val a) (64 * j + m + r)).
        { intros j m Hm. rewrite V, zero_nth. cbn [Nat.leb andb Nat.add]. destruct (Nat.ltb_spec j (L - ls)) as [J|J].
          - unfold f. destruct (Nat.lt_ge_cases (m + bs) 64) as [M|M].
            + assert (Q : tb (shr64 (nth (j + ls) a 0%N) bs) m = tb (u_val a) (64 * j + m + r)).
              { rewrite tb_shr. rewrite tb_val by apply Sa. replace (64 * j + m + r) with ((m + bs) + (j + ls) * 64) by lia.
                rewrite Nat.div_add, Nat.mod_add by lia. rewrite Nat.div_small, Nat.mod_small by lia. reflexivity. }
              destruct ((0 <? bs) && (j + ls + 1 <? L)); [|exact Q]. rewrite tb_lor, Q, tb_shl.
              destruct (Nat.leb_spec (64 - bs) m); [lia|]. cbn [andb]. rewrite andb_false_r. apply orb_false_r.
            + assert (P : tb (shr64 (nth (j + ls) a 0%N) bs) m = false).
              { rewrite tb_shr. apply limb_hi; [apply shaped_lt; exact Sa|lia]. }
              assert (E : 64 * j + m + r = (m + bs - 64) + (j + ls + 1) * 64) by lia.
              assert (Q : tb (u_val a) (64 * j + m + r) = tb (nth (j + ls + 1) a 0%N) (m + bs - 64)).
              { rewrite E, tb_val by apply Sa. rewrite Nat.div_add, Nat.mod_add by lia.
                rewrite Nat.div_small, Nat.mod_small by lia. reflexivity. }
              rewrite Q. destruct (Nat.ltb_spec 0 bs); [|lia]. cbn [andb]. destruct (Nat.ltb_spec (j + ls + 1) L).
              * rewrite tb_lor, P, tb_shl. destruct (Nat.ltb_spec m 64); [|lia]. destruct (Nat.leb_spec (64 - bs) m); [|lia].
                cbn [andb orb]. f_equal. lia.
              * rewrite P. rewrite nth_overflow by (destruct Sa; lia). symmetry. apply tb_0.
          - rewrite tb_0. symmetry. apply shaped_top; [exact Sa|]. lia. }
        assert (S : shaped res).
        { apply shaped_nth; [rewrite Lr; apply zero_len|]. intros j. apply limb_lt. intros k Hk. rewrite V, zero_nth.
          destruct ((0 <=? j) && (j <? 0 + (L - ls))); [|apply tb_0]. unfold f.
          assert (P : tb (shr64 (nth (j + ls) a 0%N) bs) k = false) by (rewrite tb_shr; apply limb_hi; [apply shaped_lt; exact Sa|lia]).
          destruct ((0 <? bs) && (j + ls + 1 <? L)); [|exact P]. rewrite tb_lor, P, tb_shl. destruct (Nat.ltb_spec k 64); [lia|reflexivity]. }
        assert (Bt : forall k, tb (u_val res) k = tb (u_val a) (k + r)).
        { intros k. rewrite tb_val by apply S. pose proof (Nat.div_mod_eq k 64). pose proof (Nat.mod_upper_bound k 64).
          rewrite V' by lia. f_equal. lia. }
        split; [|exact Bt]. apply canon_of; [exact S|]. intros k Hk. rewrite Bt. apply canon_hi; [exact C|lia]. }
    destruct Goal as [G1 G2]. split; [exact G1|]. apply tb_ext. intros k. rewrite G2.
    rewrite <- N.shiftr_div_pow2. symmetry. apply tb_shr.
  Qed.

  Lemma bit_ok a i : u_canonical B a -> u_bit B a i = N.testbit (u_val a) (N.of_nat i).
  Proof.
    intros C. destruct (shr_ok a i C) as [C1 V1]. destruct (from_u64_ok 1 eq_refl) as [C2 V2].
    destruct (and_ok _ _ C1 C2) as [C3 V3]. pose proof (eqb_ok _ _ C3 C2) as E. rewrite V3, V1, V2 in E.
    unfold u_bit. rewrite <- N.shiftr_div_pow2 in E.
    change 1%N with (N.ones 1) in E. rewrite N.land_ones in E. change (2 ^ 1)%N with 2%N in E. change (N.ones 1) with 1%N in E.
    rewrite <- N.bit0_mod, N.shiftr_spec, N.add_0_l in E by lia.
    destruct (u_eqb _ _); destruct (N.testbit (u_val a) (N.of_nat i)); auto.
    - destruct E as [E _]. specialize (E eq_refl). discriminate.
    - destruct E as [_ E]. specialize (E eq_refl). discriminate.
  Qed.
  Lemma set_ok a i : u_canonical B a -> i < B ->
    u_canonical B (u_set B a i) /\ u_val (u_set B a i) = N.setbit (u_val a) (N.of_nat i).
  Proof.
    intros C Hi. destruct (from_u64_ok 1 eq_refl) as [C1 V1]. destruct (shl_ok _ i C1) as [C2 V2].
    destruct (or_assign_ok _ _ C C2) as [C3 V3]. split; [exact C3|]. unfold u_set. rewrite V3, V2, V1.
    rewrite N.mul_1_l. rewrite N.mod_small by (apply N.pow_lt_mono_r; lia).
    rewrite <- (N.mul_1_l (2 ^ N.of_nat i)), <- N.shiftl_mul_pow2. unfold N.setbit. reflexivity.
  Qed.
End U.

(** ** FixedVec *)
Section FV.
  Variables (T E : Type).
  Lemma collect_results_ok (it : list (T + E)) :
    (forall v, collect_results T E it = inl v <-> it = map inl v) /\
    (forall e, collect_results T E it = inr e <-> exists v r, it = map inl v ++ inr e :: r).
  Proof.
    induction it as [|[x|e0] it IH]; cbn [collect_results].
    - split.
      + intros v. split; intros H; [injection H as <-; reflexivity|]. destruct v; [reflexivity|discriminate].
      + intros e. split; [discriminate|]. intros ([|] & r & H); discriminate.
    - destruct IH as [I1 I2]. destruct (collect_results T E it) as [l|e].
      + pose proof (proj1 (I1 l) eq_refl) as E1. subst it. split.
        * intros v. split; [intros H; injection H as <-; reflexivity|]. destruct v as [|y v]; [discriminate|]. cbn. intros H.
          injection H as -> H. apply (I1 v) in H. congruence.
        * intros e. split; [discriminate|]. intros ([|y v] & r & H); [discriminate|]. cbn in H. injection H as -> H.
          exfalso. pose proof (proj2 (I2 e) (ex_intro _ v (ex_intro _ r H))). discriminate.
      + destruct (proj1 (I2 e) eq_refl) as (v0 & r0 & E0). subst it. split.
        * intros v. split; [discriminate|]. destruct v as [|y v]; [discriminate|]. cbn. intros H. injection H as -> H.
          apply (I1 v) in H. discriminate.
        * intros e'. split.
          -- intros H. injection H as <-. exists (x :: v0), r0. reflexivity.
          -- intros ([|y v] & r & H); [discriminate|]. cbn in H. injection H as -> H.
             f_equal. pose proof (proj2 (I2 e') (ex_intro _ v (ex_intro _ r H))) as Q. congruence.
    - split.
      + intros v. split; [discriminate|]. destruct v; discriminate.
      + intros e. split.
        * intros H. injection H as <-. exists [], it. reflexivity.
        * intros ([|y v] & r & H); [|discriminate]. cbn in H. congruence.
  Qed.
End FV.
