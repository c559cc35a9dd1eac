From Coq Require Import List Arith NArith ZArith Bool Lia.
From Verif Require Import FFTModel FFTProofs MSMModel MSMSpec.
Import ListNotations.

Lemma bucket_lookup_range n : (1 <= bucket_lookup n <= 16)%nat.
Proof.
  unfold bucket_lookup. cbn [ln_thresholds bucket_go].
  repeat match goal with |- context [if ?b then _ else _] => destruct b end; cbn; lia.
Qed.

Lemma byte_value_le i bytes : byte_value i bytes = (256 ^ i * le_value bytes)%N.
Proof.
  revert i. induction bytes as [|b bs IH]; intros i; cbn [byte_value le_value fold_right]; [lia|].
  rewrite IH. fold (le_value bs). rewrite N.pow_add_r. lia.
Qed.

Lemma le_value_bound bytes : Forall (fun b => (b < 256)%N) bytes ->
  (le_value bytes < 256 ^ N.of_nat (length bytes))%N.
Proof.
  induction 1 as [|b bs Hb _ IH]; cbn [le_value fold_right length]; [reflexivity|].
  fold (le_value bs). rewrite Nat2N.inj_succ, N.pow_succ_r'. lia.
Qed.

Lemma le_value_skipn k : forall bytes, Forall (fun b => (b < 256)%N) bytes ->
  le_value (skipn k bytes) = (le_value bytes / 256 ^ N.of_nat k)%N.
Proof.
  induction k as [|k IH]; intros bytes H; [cbn [skipn N.of_nat]; rewrite N.pow_0_r, N.div_1_r; reflexivity|].
  destruct H as [|b bs Hb Hbs].
  - cbn [skipn le_value fold_right]. rewrite N.div_0_l; [reflexivity|]. apply N.pow_nonzero. lia.
  - cbn [skipn]. rewrite IH by exact Hbs. cbn [le_value fold_right]. fold (le_value bs).
    rewrite Nat2N.inj_succ, N.pow_succ_r', <- N.div_div by (try apply N.pow_nonzero; lia).
    f_equal. rewrite (N.mul_comm 256), N.div_add by lia. rewrite N.div_small by exact Hb. lia.
Qed.

Lemma le_value_firstn k : forall bytes, Forall (fun b => (b < 256)%N) bytes ->
  le_value (firstn k bytes) = (le_value bytes mod 256 ^ N.of_nat k)%N.
Proof.
  induction k as [|k IH]; intros bytes H; [cbn [firstn N.of_nat le_value fold_right]; rewrite N.pow_0_r, N.mod_1_r; reflexivity|].
  destruct H as [|b bs Hb Hbs].
  - cbn [firstn le_value fold_right]. rewrite N.mod_0_l; [reflexivity|]. apply N.pow_nonzero. lia.
  - cbn [firstn le_value fold_right]. fold (le_value bs) (le_value (firstn k bs)). rewrite IH by exact Hbs.
    rewrite Nat2N.inj_succ, N.pow_succ_r'.
    assert (Hp : (256 ^ N.of_nat k <> 0)%N) by (apply N.pow_nonzero; lia).
    rewrite N.mod_mul_r by (try exact Hp; lia).
    rewrite (N.mul_comm 256 (le_value bs)), N.mod_add, N.div_add by lia.
    rewrite (N.mod_small b), (N.div_small b) by exact Hb. rewrite N.add_0_l. reflexivity.
Qed.

Lemma Forall_skipn {A} (P : A -> Prop) k l : Forall P l -> Forall P (skipn k l).
Proof.
  revert l. induction k as [|k IH]; intros l H; [exact H|]. destruct H; [constructor|]. apply IH; assumption.
Qed.

(** [get_at] extracts a window of bits *)
Lemma get_at_ok seg c bytes : (c <= 16)%nat -> Forall (fun b => (b < 256)%N) bytes ->
  get_at seg c bytes = ((le_value bytes / 2 ^ N.of_nat (seg * c)) mod 2 ^ N.of_nat c)%N.
Proof.
  intros Hc Hb. unfold get_at. set (sk := (seg * c)%nat). set (sb := (sk / 8)%nat).
  assert (Hsk : (sk = 8 * sb + sk mod 8)%nat) by (apply Nat.div_mod; lia).
  pose proof (Nat.mod_upper_bound sk 8 ltac:(lia)) as Hr. set (r := (sk mod 8)%nat) in *.
  assert (P256 : forall k, (256 ^ N.of_nat k = 2 ^ N.of_nat (8 * k))%N).
  { intros k. rewrite Nat2N.inj_mul, N.pow_mul_r. reflexivity. }
  destruct (Nat.leb_spec (length bytes) sb) as [L|L].
  - rewrite N.div_small; [rewrite N.mod_0_l; [reflexivity|apply N.pow_nonzero; lia]|].
    eapply N.lt_le_trans; [apply le_value_bound; exact Hb|].
    rewrite P256. apply N.pow_le_mono_r; lia.
  - rewrite le_value_firstn by (apply Forall_skipn; exact Hb).
    rewrite le_value_skipn by exact Hb.
    rewrite !P256. rewrite !N.shiftr_div_pow2.
    replace (sk - sb * 8)%nat with r by lia.
    apply N_bits_inj_nat. intros i.
    destruct (Nat.lt_ge_cases i c) as [Hi|Hi].
    + rewrite !N.mod_pow2_bits_low by lia. rewrite !N.div_pow2_bits.
      rewrite N.mod_pow2_bits_low by lia. rewrite N.div_pow2_bits. f_equal. lia.
    + rewrite !N.mod_pow2_bits_high by lia. reflexivity.
Qed.

Section MSMP.
  Variable G : CMon.
  Implicit Types P Q : G.

  Lemma gadd_id_r P : gadd P gid = P.
  Proof. rewrite gadd_comm. apply gadd_id. Qed.
  Lemma gadd_4 (a b c d : G) : gadd (gadd a b) (gadd c d) = gadd (gadd a c) (gadd b d).
  Proof. rewrite !gadd_assoc. f_equal. rewrite <- !gadd_assoc. f_equal. apply gadd_comm. Qed.

  Lemma nmul_0 P : nmul 0 P = gid. Proof. reflexivity. Qed.
  Lemma nmul_succ n P : nmul (N.succ n) P = gadd P (nmul n P).
  Proof. unfold nmul. apply N.iter_succ. Qed.
  Lemma nmul_1 P : nmul 1 P = P.
  Proof. change 1%N with (N.succ 0). rewrite nmul_succ, nmul_0. apply gadd_id_r. Qed.
  Lemma nmul_add n m P : nmul (n + m) P = gadd (nmul n P) (nmul m P).
  Proof.
    induction n as [|n IH] using N.peano_ind; [rewrite nmul_0, gadd_id; reflexivity|].
    rewrite N.add_succ_l, !nmul_succ, IH, gadd_assoc. reflexivity.
  Qed.
  Lemma nmul_gid n : nmul n (gid : G) = gid.
  Proof. induction n as [|n IH] using N.peano_ind; [reflexivity|]. rewrite nmul_succ, IH. apply gadd_id. Qed.
  Lemma nmul_gadd n P Q : nmul n (gadd P Q) = gadd (nmul n P) (nmul n Q).
  Proof.
    induction n as [|n IH] using N.peano_ind; [rewrite !nmul_0, gadd_id; reflexivity|].
    rewrite !nmul_succ, IH. apply gadd_4.
  Qed.
  Lemma nmul_mul n m P : nmul (n * m) P = nmul n (nmul m P).
  Proof.
    induction n as [|n IH] using N.peano_ind; [reflexivity|].
    rewrite N.mul_succ_l, nmul_succ, N.add_comm, nmul_add, IH. reflexivity.
  Qed.

  Lemma double_n_ok c : forall P, double_n c P = nmul (2 ^ N.of_nat c) P.
  Proof.
    induction c as [|c IH]; intros P; cbn [double_n]; [cbn [N.of_nat]; rewrite N.pow_0_r, nmul_1; reflexivity|].
    rewrite IH, Nat2N.inj_succ, N.pow_succ_r', N.mul_comm, nmul_mul.
    f_equal. change 2%N with (N.succ 1). rewrite nmul_succ, nmul_1. reflexivity.
  Qed.

  Definition bval (b : bucket G) : G := match b with BNone => gid | BAffine p => p | BProjective p => p end.
  Lemma b_add_ok b P : b_add b P = gadd (bval b) P.
  Proof. destruct b; cbn; [rewrite gadd_id; reflexivity|apply gadd_comm|apply gadd_comm]. Qed.
  Lemma b_add_assign_ok b P : bval (b_add_assign b P) = gadd (bval b) P.
  Proof. destruct b; cbn; [rewrite gadd_id; reflexivity|reflexivity|reflexivity]. Qed.

  (** weighted bucket sum: bucket i counts i+1 times *)
  Fixpoint wsum (i : nat) (bs : list (bucket G)) : G :=
    match bs with [] => gid | b :: bs' => gadd (nmul (N.of_nat (i + 1)) (bval b)) (wsum (i + 1) bs') end.
  Fixpoint bsum (bs : list (bucket G)) : G :=
    match bs with [] => gid | b :: bs' => gadd (bval b) (bsum bs') end.

  Lemma wsum_app bs1 : forall i bs2, wsum i (bs1 ++ bs2) = gadd (wsum i bs1) (wsum (i + length bs1) bs2).
  Proof.
    induction bs1 as [|b bs1 IH]; intros i bs2; cbn [app wsum length].
    - rewrite gadd_id, Nat.add_0_r. reflexivity.
    - rewrite IH, gadd_assoc. replace (i + 1 + length bs1)%nat with (i + S (length bs1))%nat by lia. reflexivity.
  Qed.
  Lemma bsum_app bs1 bs2 : bsum (bs1 ++ bs2) = gadd (bsum bs1) (bsum bs2).
  Proof. induction bs1 as [|b bs1 IH]; cbn; [rewrite gadd_id; reflexivity|]. rewrite IH, gadd_assoc. reflexivity. Qed.
  Lemma wsum_shift bs : forall i, wsum (i + 1) bs = gadd (wsum i bs) (bsum bs).
  Proof.
    induction bs as [|b bs IH]; intros i; cbn [wsum bsum]; [rewrite gadd_id; reflexivity|].
    rewrite IH. replace (N.of_nat (i + 1 + 1)) with (N.succ (N.of_nat (i + 1))) by lia.
    rewrite nmul_succ. rewrite (gadd_comm _ (bval b)), gadd_4. reflexivity.
  Qed.

  Lemma parts_ok bs : forall running sum,
    parts bs running sum
    = gadd sum (gadd (nmul (N.of_nat (length bs)) running) (wsum 0 (rev bs))).
  Proof.
    induction bs as [|b bs IH]; intros running sum; cbn [parts rev length].
    - cbn [N.of_nat wsum]. rewrite nmul_0, !gadd_id_r. reflexivity.
    - rewrite IH, b_add_ok, wsum_app, rev_length. cbn [wsum Nat.add].
      rewrite gadd_id_r, Nat2N.inj_succ, !nmul_succ, !nmul_gadd.
      rewrite Nat.add_1_r, Nat2N.inj_succ, nmul_succ.
      set (n := N.of_nat (length bs)). set (x := bval b). set (w := wsum 0 (rev bs)).
      rewrite <- gadd_assoc. f_equal.
      rewrite (gadd_assoc _ (gadd x running)), gadd_4, (gadd_comm _ (gadd x (nmul n x))), <- gadd_assoc.
      f_equal. apply gadd_comm.
  Qed.

  Lemma wsum_upd bs : forall i j b P, nth_error bs j = Some b ->
    wsum i (upd bs j (b_add_assign b P)) = gadd (nmul (N.of_nat (i + j + 1)) P) (wsum i bs).
  Proof.
    induction bs as [|b0 bs IH]; intros i j b P H; [destruct j; discriminate|].
    destruct j as [|j]; cbn [nth_error] in H; cbn [upd wsum].
    - inversion H; subst. rewrite b_add_assign_ok, nmul_gadd, Nat.add_0_r.
      rewrite (gadd_comm _ (nmul _ (bval b))), gadd_assoc. reflexivity.
    - rewrite (IH (i + 1)%nat j b P H). replace (i + 1 + j + 1)%nat with (i + S j + 1)%nat by lia.
      rewrite !gadd_assoc. f_equal. apply gadd_comm.
  Qed.

  Lemma wsum_none i n : wsum i (repeat BNone n) = gid.
  Proof.
    revert i. induction n as [|n IH]; intros i; cbn [repeat wsum]; [reflexivity|].
    rewrite IH. cbn [bval]. rewrite nmul_gid. apply gadd_id.
  Qed.

  Lemma fill_ok seg c : (c <= 16)%nat -> forall cs bases bs,
    Forall (Forall (fun b => (b < 256)%N)) cs -> length bs = (2 ^ c - 1)%nat ->
    exists bs', fill seg c cs bases bs = Some bs' /\ length bs' = (2 ^ c - 1)%nat /\
      wsum 0 bs' = gadd (naive_msm (map (get_at seg c) cs) bases) (wsum 0 bs).
  Proof.
    intros Hc. induction cs as [|co cs IH]; intros bases bs HF Hl.
    - exists bs. cbn. rewrite gadd_id. auto.
    - inversion HF as [|? ? Hco HF']; subst. destruct bases as [|p bases].
      + exists bs. cbn. rewrite gadd_id. auto.
      + cbn [fill map naive_msm].
        assert (Hlt : (get_at seg c co < 2 ^ N.of_nat c)%N).
        { rewrite get_at_ok by assumption. apply N.mod_lt. apply N.pow_nonzero. lia. }
        rewrite <- pow2_nat_N in Hlt.
        destruct (Nat.eqb_spec (N.to_nat (get_at seg c co)) 0) as [E|E].
        * destruct (IH bases bs HF' Hl) as (bs' & -> & L & W). exists bs'. repeat split; auto.
          rewrite W. replace (get_at seg c co) with 0%N by lia. rewrite nmul_0, gadd_id. reflexivity.
        * destruct (nth_error bs (N.to_nat (get_at seg c co) - 1)) as [b|] eqn:Eb;
            [|apply nth_error_None in Eb; lia].
          destruct (IH bases (upd bs (N.to_nat (get_at seg c co) - 1) (b_add_assign b p)) HF') as (bs' & -> & L & W).
          { rewrite upd_length. exact Hl. }
          exists bs'. repeat split; auto. rewrite W, (wsum_upd _ _ _ _ _ Eb).
          replace (N.of_nat (0 + (N.to_nat (get_at seg c co) - 1) + 1)) with (get_at seg c co) by lia.
          rewrite !gadd_assoc. f_equal. apply gadd_comm.
  Qed.

  Lemma window_sum_ok seg c cs (bases : list G) : (c <= 16)%nat -> Forall (Forall (fun b => (b < 256)%N)) cs ->
    window_sum seg c cs bases = Some (naive_msm (map (get_at seg c) cs) bases).
  Proof.
    intros Hc HF. unfold window_sum.
    destruct (fill_ok seg c Hc cs bases (repeat BNone (2 ^ c - 1)) HF (repeat_length _ _)) as (bs & -> & L & W).
    f_equal. rewrite parts_ok, rev_involutive, nmul_gid, !gadd_id, W, wsum_none. apply gadd_id_r.
  Qed.

  Lemma window_sums_ok c cs (bases : list G) : (c <= 16)%nat -> Forall (Forall (fun b => (b < 256)%N)) cs ->
    forall segs, window_sums segs c cs bases
      = Some (map (fun s => naive_msm (map (get_at s c) cs) bases) segs).
  Proof.
    intros Hc HF. induction segs as [|s segs IH]; cbn [window_sums map]; [reflexivity|].
    rewrite window_sum_ok, IH by assumption. reflexivity.
  Qed.

  Lemma naive_add ks1 : forall ks2 (ps : list G), length ks1 = length ks2 ->
    naive_msm (map (fun k => (fst k + snd k)%N) (combine ks1 ks2)) ps
    = gadd (naive_msm ks1 ps) (naive_msm ks2 ps).
  Proof.
    induction ks1 as [|k ks1 IH]; intros [|k2 ks2] ps H; try discriminate.
    - cbn. rewrite gadd_id. reflexivity.
    - destruct ps as [|p ps]; cbn [combine map naive_msm fst snd]; [rewrite gadd_id; reflexivity|].
      rewrite IH by (cbn in H; lia). rewrite nmul_add. apply gadd_4.
  Qed.

  Lemma naive_ext {A} (f g : A -> N) (cs : list A) (ps : list G) : (forall x, In x cs -> f x = g x) ->
    naive_msm (map f cs) ps = naive_msm (map g cs) ps.
  Proof. intros H. rewrite (map_ext_in f g); auto. Qed.

  Lemma naive_linear {A} (f g : A -> N) (cs : list A) : forall (ps : list G),
    naive_msm (map (fun x => (f x + g x)%N) cs) ps = gadd (naive_msm (map f cs) ps) (naive_msm (map g cs) ps).
  Proof.
    induction cs as [|c cs IH]; intros ps; cbn [map naive_msm]; [rewrite gadd_id; reflexivity|].
    destruct ps as [|p ps]; [rewrite gadd_id; reflexivity|]. rewrite IH, nmul_add. apply gadd_4.
  Qed.
  Lemma naive_scale {A} (f : A -> N) k (cs : list A) : forall (ps : list G),
    naive_msm (map (fun x => (k * f x)%N) cs) ps = nmul k (naive_msm (map f cs) ps).
  Proof.
    induction cs as [|c cs IH]; intros ps; cbn [map naive_msm]; [rewrite nmul_gid; reflexivity|].
    destruct ps as [|p ps]; [rewrite nmul_gid; reflexivity|]. rewrite IH, nmul_mul, nmul_gadd. reflexivity.
  Qed.

  (** the windows from segment s on *)
  Lemma combine_ok c cs (bases : list G) : (1 <= c <= 16)%nat -> Forall (Forall (fun b => (b < 256)%N)) cs ->
    forall m s, (forall x, In x cs -> (le_value x < 2 ^ N.of_nat ((s + m) * c))%N) ->
    combine_windows c (map (fun s => naive_msm (map (get_at s c) cs) bases) (seq s m))
    = naive_msm (map (fun x => (le_value x / 2 ^ N.of_nat (s * c))%N) cs) bases.
  Proof.
    intros Hc HF. induction m as [|m IH]; intros s Hb.
    - cbn. rewrite (naive_ext _ (fun x => (0 * 0)%N)).
      + rewrite naive_scale. reflexivity.
      + intros x Hx. apply N.div_small. rewrite Nat.add_0_r in Hb. apply Hb; exact Hx.
    - cbn [seq map]. unfold combine_windows. cbn [rev]. rewrite fold_left_app. cbn [fold_left].
      fold (combine_windows c (map (fun s => naive_msm (map (get_at s c) cs) bases) (seq (S s) m))).
      rewrite IH by (intros x Hx; replace (S s + m)%nat with (s + S m)%nat by lia; apply Hb; exact Hx).
      rewrite double_n_ok, <- naive_scale, <- naive_linear.
      apply naive_ext. intros x Hx. rewrite Forall_forall in HF.
      rewrite get_at_ok by (try apply HF; try assumption; lia).
      replace (S s * c)%nat with (s * c + c)%nat by lia.
      rewrite Nat2N.inj_add, N.pow_add_r, <- N.div_div by (apply N.pow_nonzero; lia).
      rewrite <- N.div_mod; [reflexivity|]. apply N.pow_nonzero. lia.
  Qed.

  Theorem msm_ok num_bits (cs : list (list N)) (bases : list G) :
    Forall (scalar_repr num_bits) cs ->
    msm num_bits cs bases = Some (naive_msm (map (byte_value 0) cs) bases).
  Proof.
    intros HF. unfold msm. set (c := bucket_lookup (length cs)).
    assert (Hc : (1 <= c <= 16)%nat) by apply bucket_lookup_range.
    assert (HB : Forall (Forall (fun b => (b < 256)%N)) cs).
    { eapply Forall_impl; [|exact HF]. intros x [H _]. exact H. }
    rewrite window_sums_ok by (try assumption; lia). f_equal.
    rewrite combine_ok; [|exact Hc|exact HB|].
    - apply naive_ext. intros x Hx. cbn [Nat.mul N.of_nat]. rewrite N.pow_0_r, N.div_1_r, byte_value_le.
      rewrite N.pow_0_r. lia.
    - intros x Hx. rewrite Forall_forall in HF. destruct (HF x Hx) as [_ Hv].
      rewrite byte_value_le, N.pow_0_r, N.mul_1_l in Hv.
      eapply N.lt_le_trans; [exact Hv|]. apply N.pow_le_mono_r; [lia|].
      pose proof (Nat.div_mod (num_bits + c - 1) c ltac:(lia)) as E.
      pose proof (Nat.mod_upper_bound (num_bits + c - 1) c ltac:(lia)). cbn [Nat.add]. nia.
  Qed.
End MSMP.
