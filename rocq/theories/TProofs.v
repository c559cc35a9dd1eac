From Coq Require Import List Arith Lia Bool Field.
From Verif Require Import FieldDef ModDef ArithModel FFTProofs SparseModel SparseSpec SparseProofs SparseProofs2 RootsProofs TModel.
Import ListNotations.

Section P.
  Variable F : Field.
  Add Field FFt : (f_theory F).
  Open Scope f_scope.

  (** the reference t(x,z) *)
  Definition t_spec (n : nat) (x z : F) : F :=
    - fsum n (fun i => x ^ (4 * n - 1 - i) * (z ^ (2 * n - 1 - i) + z ^ (2 * n + i))).

  Lemma tz_loop_len : forall cnt (l r z zi : F), length (tz_loop cnt l r z zi) = cnt.
  Proof. induction cnt; intros; simpl; auto. Qed.
  Lemma tz_loop_nth : forall cnt (l r z zi : F) i, (i < cnt)%nat ->
    nth i (tz_loop cnt l r z zi) 0 = l * zi ^ i + r * z ^ i.
  Proof.
    induction cnt; intros l r z zi i H; [lia|]. simpl. destruct i; [simpl; ring|].
    rewrite IHcnt by lia. simpl. ring.
  Qed.
  Lemma tx_loop_len : forall cnt (xi x : F), length (tx_loop cnt xi x) = cnt.
  Proof. induction cnt; intros; simpl; auto. Qed.
  Lemma tx_loop_nth : forall cnt (xi x : F) i, (i < cnt)%nat -> nth i (tx_loop cnt xi x) 0 = xi * x ^ i.
  Proof.
    induction cnt; intros xi x i H; [lia|]. simpl. destruct i; [simpl; ring|].
    rewrite IHcnt by lia. simpl. ring.
  Qed.

  Lemma t_z_ok : forall n (z : F), exists p, t_z n z = Some p /\ wf 0 (4 * n) p /\
    forall k, coeff_at p k =
      if (3 * n <=? k) && (k <? 4 * n)
      then - (z ^ (2 * n - 1 - (4 * n - 1 - k)) + z ^ (2 * n + (4 * n - 1 - k))) else 0.
  Proof.
    intros n z. unfold t_z. set (c := if feqb z 0 then _ else _).
    assert (Hc : (length c <= n)%nat).
    { unfold c. destruct (feqb z 0); [simpl; lia|]. rewrite tz_loop_len. lia. }
    destruct (wiring_build_ok F n [] [] c []) as (p & E & W & C); try (simpl; lia).
    exists p. split; [exact E|]. split; auto. intros k. rewrite C. unfold trace_coeff.
    assert (Hnil : forall i, nth i [] (0:F) = 0) by (destruct i; auto).
    rewrite !Hnil.
    destruct (Nat.ltb_spec k n); [destruct (Nat.leb_spec (3*n) k); try lia; auto|].
    destruct (Nat.ltb_spec k (2*n)); [destruct (Nat.leb_spec (3*n) k); try lia; auto|].
    destruct (Nat.ltb_spec k (3*n)); [destruct (Nat.leb_spec (3*n) k); try lia; auto|].
    destruct (Nat.leb_spec (3*n) k); try lia. destruct (Nat.ltb_spec k (4*n)); cbn [andb]; auto.
    unfold c. destruct (feqb z 0) eqn:Ez.
    - apply feqb_true in Ez. subst z. rewrite Hnil. rewrite !fpow_zero by lia. ring.
    - apply feqb_false in Ez. rewrite tz_loop_nth by lia. set (i := (4 * n - 1 - k)%nat).
      assert (E1 : z ^ (2 * n - 1 - i) = z ^ (2 * n) * finv z ^ (S i)).
      { rewrite fpow_sub by (auto; unfold i; lia). f_equal. unfold i. lia. }
      rewrite E1, fpow_add. cbn [fpow]. ring.
  Qed.
  Lemma t_x_ok : forall n (x : F), exists p, t_x n x = Some p /\ wf 0 (4 * n) p /\
    forall k, coeff_at p k =
      if (n <=? k) && (k <? 2 * n) then - x ^ (4 * n - 1 - (2 * n - 1 - k))
      else if (2 * n <=? k) && (k <? 3 * n) then - x ^ (4 * n - 1 - (k - 2 * n)) else 0.
  Proof.
    intros n x. unfold t_x. set (v := if feqb x 0 then _ else _).
    assert (Hv : (length v <= n)%nat).
    { unfold v. destruct (feqb x 0); [simpl; lia|]. rewrite rev_length, tx_loop_len. lia. }
    destruct (wiring_build_ok F n v v [] []) as (p & E & W & C); try (simpl; lia).
    exists p. split; [exact E|]. split; auto. intros k. rewrite C. unfold trace_coeff.
    assert (Hnil : forall i, nth i [] (0:F) = 0) by (destruct i; auto). rewrite !Hnil.
    assert (Hn : forall i, (i < n)%nat -> nth i v 0 = - x ^ (4 * n - 1 - i)).
    { intros i Hi. unfold v. destruct (feqb x 0) eqn:Ex.
      - apply feqb_true in Ex. subst x. rewrite Hnil, fpow_zero by lia. ring.
      - rewrite rev_nth; rewrite tx_loop_len; [|lia]. rewrite tx_loop_nth by lia.
        replace (4 * n - 1 - i)%nat with (3 * n + (n - S i))%nat by lia. rewrite fpow_add. ring. }
    destruct (Nat.ltb_spec k n); destruct (Nat.leb_spec n k); destruct (Nat.ltb_spec k (2 * n));
      destruct (Nat.leb_spec (2 * n) k); destruct (Nat.ltb_spec k (3 * n)); try lia; cbn [andb]; auto.
    - apply Hn. lia.
    - apply Hn. lia.
    - destruct (Nat.ltb_spec k (4 * n)); auto.
  Qed.

  (** evaluation of a coefficient function supported on one gate quarter *)
  Lemma tz_eval : forall n (x z : F) p, t_z n z = Some p -> p_eval (4 * n) p x = t_spec n x z.
  Proof.
    intros n x z p H. destruct (t_z_ok n z) as (p' & E & W & C). rewrite E in H. injection H as ->.
    rewrite eval_ok by auto. rewrite sum_by_gate. unfold t_spec. rewrite <- fsum_opp.
    apply fsum_ext. intros i Hi. rewrite !C.
    repeat match goal with |- context [?a <=? ?b] => destruct (Nat.leb_spec a b); try lia
      | |- context [?a <? ?b] => destruct (Nat.ltb_spec a b); try lia end; cbn [andb].
    replace (4 * n - 1 - (4 * n - 1 - i))%nat with i by lia. ring.
  Qed.
  Lemma tx_eval : forall n (x z : F) p, t_x n x = Some p -> p_eval (4 * n) p z = t_spec n x z.
  Proof.
    intros n x z p H. destruct (t_x_ok n x) as (p' & E & W & C). rewrite E in H. injection H as ->.
    rewrite eval_ok by auto. rewrite sum_by_gate. unfold t_spec. rewrite <- fsum_opp.
    apply fsum_ext. intros i Hi. rewrite !C.
    repeat match goal with |- context [?a <=? ?b] => destruct (Nat.leb_spec a b); try lia
      | |- context [?a <? ?b] => destruct (Nat.ltb_spec a b); try lia end; cbn [andb].
    replace (2 * n - 1 - (2 * n - 1 - i))%nat with i by lia.
    replace (2 * n + i - 2 * n)%nat with i by lia. ring.
  Qed.

  Lemma geo_double : forall k (q : F), fsum (2 ^ S k) (fun i => q ^ i) = (1 + q) * fsum (2 ^ k) (fun i => (q * q) ^ i).
  Proof.
    intros. replace (2 ^ S k)%nat with (2 * 2 ^ k)%nat by (simpl; lia). rewrite fsum_even_odd.
    rewrite <- fsum_scale, <- fsum_add. apply fsum_ext. intros i Hi.
    rewrite fpow_add, fpow_1, fpow_mul. replace (q ^ 2) with (q * q) by (simpl; ring). ring.
  Qed.
  Lemma txz_double_ok : forall k (l r p q : F),
    txz_double k l r p q = (l * fsum (2 ^ k) (fun i => p ^ i), r * fsum (2 ^ k) (fun i => q ^ i)).
  Proof.
    induction k; intros l r p q.
    - simpl. f_equal; ring.
    - cbn [txz_double]. rewrite IHk, !geo_double. f_equal; ring.
  Qed.
  Lemma txz_sum : forall n (x z : F), x <> 0 -> z <> 0 ->
    - (x ^ (4 * n - 1) * z ^ (2 * n) * fsum n (fun i => (finv x * z) ^ i)
       + x ^ (4 * n - 1) * z ^ (2 * n) * fsum n (fun i => (finv x * finv z) ^ i) * finv z) = t_spec n x z.
  Proof.
    intros n x z Hx Hz. unfold t_spec. rewrite <- !fsum_scale, <- fsum_scale_r, <- fsum_add. f_equal.
    apply fsum_ext. intros i Hi. rewrite !fpow_mul_base.
    rewrite <- (fpow_sub F x (4 * n - 1) i) by (auto; lia).
    replace (2 * n - 1 - i)%nat with (2 * n - (S i))%nat by lia.
    rewrite <- (fpow_sub F z (2 * n) (S i)) by (auto; lia). rewrite fpow_add. cbn [fpow]. ring.
  Qed.
  Lemma txz_predict_ok : forall k (x z : F), x <> 0 -> z <> 0 ->
    txz_predict k x z = Some (t_spec (2 ^ k) x z, (finv x, finv z)).
  Proof.
    intros k x z Hx Hz. unfold txz_predict.
    rewrite (proj2 (feqb_false F x 0) Hx), (proj2 (feqb_false F z 0) Hz).
    rewrite txz_double_ok. do 2 f_equal. apply txz_sum; auto.
  Qed.
  Lemma t_spec_zero : forall n (x z : F), (0 < n)%nat -> x = 0 \/ z = 0 -> t_spec n x z = 0.
  Proof.
    intros n x z Hn [->| ->]; unfold t_spec; rewrite fsum_zero; try ring; intros i Hi.
    - rewrite fpow_zero by lia. ring.
    - rewrite !fpow_zero by lia. ring.
  Qed.
  Lemma t_xz_ok : forall k (x z : F), t_xz k x z = Some (t_spec (2 ^ k) x z).
  Proof.
    intros k x z. unfold t_xz. pose proof (Nat.pow_nonzero 2 k ltac:(lia)).
    destruct (feqb x 0) eqn:Ex.
    - apply feqb_true in Ex. rewrite t_spec_zero; auto. lia.
    - destruct (feqb z 0) eqn:Ez.
      + apply feqb_true in Ez. rewrite t_spec_zero; auto. lia.
      + cbn [orb]. rewrite txz_predict_ok; auto; apply feqb_false; auto.
  Qed.

  (** ** gate identity *)
  Definition gate_poly (n : nat) (a b c d : list F) (z : F) : F :=
    fsum n (fun i => (nth i a 0 * nth i b 0 - nth i c 0) * (z ^ (2 * n - 1 - i) + z ^ (2 * n + i))
                   + nth i c 0 * nth i d 0 * (z ^ i + z ^ (4 * n - 1 - i))).
  Lemma gate_identity : forall n (a b c d : list F) r z rz tz s,
    (length a <= n)%nat -> (length b <= n)%nat -> (length c <= n)%nat -> (length d <= n)%nat ->
    trace_build (4 * n) n a b c d = Some r -> rz = p_dilate z r -> t_z n z = Some tz ->
    p_add (4 * n) rz tz = Some s -> p_revdot (4 * n) r s = gate_poly n a b c d z.
  Proof.
    intros n a b c d r z rz tz s Ha Hb Hc Hd Er -> Et Es.
    destruct (trace_build_ok F n a b c d) as (r' & Er' & Wr & Cr); auto. rewrite Er' in Er. injection Er as ->.
    destruct (t_z_ok n z) as (t' & Et' & Wt & Ct). rewrite Et' in Et. injection Et as ->.
    destruct (dilate_ok F (4 * n) r z Wr) as [Wd Cd].
    destruct (add_ok F (4 * n) _ _ Wd Wt) as (s' & Es' & Ws & Cs). rewrite Es' in Es. injection Es as ->.
    rewrite revdot_ok by auto. rewrite sum_by_gate. unfold gate_poly. apply fsum_ext. intros i Hi. cbv beta.
    replace (4 * n - 1 - (2 * n - 1 - i))%nat with (2 * n + i)%nat by lia.
    replace (4 * n - 1 - (2 * n + i))%nat with (2 * n - 1 - i)%nat by lia.
    replace (4 * n - 1 - (4 * n - 1 - i))%nat with i by lia.
    rewrite !Cs, !Cd, !Cr, !Ct.
    repeat match goal with |- context [?a <=? ?b] => destruct (Nat.leb_spec a b); try lia
      | |- context [?a <? ?b] => destruct (Nat.ltb_spec a b); try lia end; cbn [andb].
    replace (4 * n - 1 - (4 * n - 1 - i))%nat with i by lia.
    rewrite !trace_coeff_a, !trace_coeff_b, !trace_coeff_d, !trace_coeff_c by auto.
    rewrite ?trace_coeff_c by auto. ring.
  Qed.

  (** as a polynomial in z of degree below 4n *)
  Definition gate_coeffs (n : nat) (a b c d : list F) : list F :=
    map (fun k =>
      if k <? n then nth k c 0 * nth k d 0
      else if k <? 2 * n then nth (2 * n - 1 - k) a 0 * nth (2 * n - 1 - k) b 0 - nth (2 * n - 1 - k) c 0
      else if k <? 3 * n then nth (k - 2 * n) a 0 * nth (k - 2 * n) b 0 - nth (k - 2 * n) c 0
      else nth (4 * n - 1 - k) c 0 * nth (4 * n - 1 - k) d 0) (seq 0 (4 * n)).
  Lemma gate_poly_peval : forall n (a b c d : list F) z, gate_poly n a b c d z = peval (gate_coeffs n a b c d) z.
  Proof.
    intros. unfold gate_coeffs. rewrite peval_map_seq, sum_by_gate. unfold gate_poly. apply fsum_ext.
    intros i Hi. cbv beta.
    repeat match goal with |- context [?a <? ?b] => destruct (Nat.ltb_spec a b); try lia end.
    replace (2 * n - 1 - (2 * n - 1 - i))%nat with i by lia.
    replace (4 * n - 1 - (4 * n - 1 - i))%nat with i by lia.
    replace (2 * n + i - 2 * n)%nat with i by lia. ring.
  Qed.
  Definition gates_ok (n : nat) (a b c d : list F) : Prop :=
    forall i, (i < n)%nat -> nth i a 0 * nth i b 0 = nth i c 0 /\ nth i c 0 * nth i d 0 = 0.
  Lemma gate_poly_zero_iff : forall n (a b c d : list F) (zs : list F), NoDup zs -> (4 * n <= length zs)%nat ->
    (gates_ok n a b c d <-> forall z, In z zs -> gate_poly n a b c d z = 0).
  Proof.
    intros n a b c d zs Hnd Hlen. split.
    - intros H z _. unfold gate_poly. apply fsum_zero. intros i Hi. destruct (H i Hi) as [-> ->]. ring.
    - intros H i Hi.
      assert (Hz : Forall (fun x => x = 0) (gate_coeffs n a b c d)).
      { apply (roots_bound F) with (rs := zs); auto.
        - unfold gate_coeffs. rewrite map_length, seq_length. auto.
        - intros z Hz. rewrite <- gate_poly_peval. auto. }
      rewrite Forall_forall in Hz.
      assert (Hk : forall k, (k < 4 * n)%nat -> nth k (gate_coeffs n a b c d) 0 = 0).
      { intros k Hk. apply Hz. apply nth_In. unfold gate_coeffs. rewrite map_length, seq_length. auto. }
      assert (Hg : forall k, (k < 4 * n)%nat -> _) by (intros k Hk'; generalize (Hk k Hk'); unfold gate_coeffs;
         rewrite nth_map_seq by auto; exact (fun x => x)).
      pose proof (Hg i ltac:(lia)) as H1. pose proof (Hg (2 * n + i)%nat ltac:(lia)) as H2. cbv beta in H1, H2.
      split.
      + revert H2. repeat match goal with |- context [?a <? ?b] => destruct (Nat.ltb_spec a b); try lia end.
        replace (2 * n + i - 2 * n)%nat with i by lia. intros HH. apply (proj1 (fsub_eq_0 F _ _)); exact HH.
      + revert H1. destruct (Nat.ltb_spec i n); try lia. auto.
  Qed.
End P.
