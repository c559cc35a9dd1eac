(** Property theorems C41, C42: fixed-length vectors and fixed-width integers. *)
From Coq Require Import List Arith NArith Bool Lia.
From Verif Require Import FieldDef PrimModel PrimProofs.
Import ListNotations.
Local Open Scope nat_scope.

(** ** C41 *)
(** Vectors a caller can get hold of: results of the constructors, of [clone] and
    [map_gadget] on such vectors, and anything reached by writing through
    [&mut \[T\]] (which cannot change the length of the slice). *)
Inductive made (E : Type) (L : nat) : forall T : Type, list T -> Prop :=
| made_new T v w : @fv_try_from T E L v = VOk w -> made E L T w
| made_collect T it w : @fv_collect T E L it = VOk w -> made E L T w
| made_try_collect T it w : @fv_try_collect T E L it = VOk w -> made E L T w
| made_from_fn T f w : @fv_from_fn T E L f = VOk w -> made E L T w
| made_try_from_fn T f w : @fv_try_from_fn T E L f = VOk w -> made E L T w
| made_clone T v w : made E L T v -> @fv_clone T E L v = VOk w -> made E L T w
| made_map T U (g : T -> U + E) v w : made E L T v -> fv_map_gadget L g v = VOk w -> made E L U w
| made_write T v w : made E L T v -> length w = length v -> made E L T w.

(** Every such vector has the declared length. *)
Theorem C41_length : forall (E : Type) (L : nat) (T : Type) (v : list T), made E L T v -> length v = L.
Proof.
  assert (TF : forall T E L (v w : list T), @fv_try_from T E L v = VOk w -> length w = L).
  { intros T E L v w H. unfold fv_try_from in H. destruct (Nat.eqb_spec (length v) L); cbn in H; congruence. }
  assert (TC : forall T E L it (w : list T), @fv_try_collect T E L it = VOk w -> length w = L).
  { intros T E L it w H. unfold fv_try_collect in H. destruct (collect_results T E it); [|discriminate]. eapply TF; exact H. }
  intros E L T v M. induction M; eauto.
  - unfold fv_from_fn, fv_collect in H. destruct (fv_try_from L (map f (seq 0 L))) eqn:Q; try discriminate. eapply TF. rewrite Q. exact H.
  - unfold fv_clone in H. destruct (Nat.eqb_spec (length v) L); congruence.
  - unfold fv_map_gadget in H. destruct (length v =? L); [|discriminate]. eapply TC; exact H.
  - congruence.
Qed.
Print Assumptions C41_length.

(** Conversions accept exactly the right length and otherwise report both
    lengths; the [try_] forms report the first error in iteration order before
    looking at the length. *)
Theorem C41_reject : forall (T E : Type) (L : nat),
  (forall v : list T, @fv_try_from T E L v = if length v =? L then VOk v else VLen L (length v)) /\
  (forall (v : list T), @fv_try_collect T E L (map inl v) = if length v =? L then VOk v else VLen L (length v)) /\
  (forall (v : list T) (e : E) rest, fv_try_collect L (map inl v ++ inr e :: rest) = VErr e) /\
  (forall (it : list (T + E)), (exists v, it = map inl v) \/ exists v e rest, it = map inl v ++ inr e :: rest).
Proof.
  intros T E L. assert (A : forall v : list T, @fv_try_from T E L v = if length v =? L then VOk v else VLen L (length v)).
  { intros v. unfold fv_try_from. destruct (length v =? L); reflexivity. }
  split; [exact A|]. split; [|split].
  - intros v. unfold fv_try_collect. rewrite (proj2 (proj1 (collect_results_ok T E (map inl v)) v) eq_refl). apply A.
  - intros v e rest. unfold fv_try_collect.
    rewrite (proj2 (proj2 (collect_results_ok T E _) e) (ex_intro _ v (ex_intro _ rest eq_refl))). reflexivity.
  - intros it. destruct (collect_results_ok T E it) as [I1 I2]. destruct (collect_results T E it) as [v|e].
    + left. exists v. apply I1. reflexivity.
    + right. destruct (proj1 (I2 e) eq_refl) as (v & r & H). eauto.
Qed.
Print Assumptions C41_reject.

(** No assertion of the module can fail on a vector a caller can hold, the
    element constructors give the elements asked for, and the pairwise traversal
    of two vectors of one type drops nothing. *)
Theorem C41_total : forall (T U E : Type) (L : nat),
  (forall f : nat -> T, @fv_from_fn T E L f = VOk (map f (seq 0 L))) /\
  (forall f : nat -> T, fv_try_from_fn L (fun i => @inl T E (f i)) = VOk (map f (seq 0 L))) /\
  (forall v : list T, made E L T v -> @fv_into_inner T E L v = VOk v /\ @fv_clone T E L v = VOk v) /\
  (forall (v : list T) (g : T -> U), made E L T v -> fv_map_gadget L (fun x => @inl U E (g x)) v = VOk (map g v)) /\
  (forall (a : list T) (b : list U), made E L T a -> made E L U b ->
     map fst (fv_zip a b) = a /\ map snd (fv_zip a b) = b) /\
  (forall (v : list T) (w : T -> list U), fv_write w v = flat_map w v).
Proof.
  intros T U E L. assert (Q : forall f : nat -> T, length (map f (seq 0 L)) = L) by (intros; rewrite map_length; apply seq_length).
  split; [|split; [|split; [|split; [|split]]]].
  - intros f. unfold fv_from_fn, fv_collect. rewrite (proj1 (C41_reject T E L)), Q, Nat.eqb_refl. reflexivity.
  - intros f. unfold fv_try_from_fn. rewrite <- (map_map f inl). rewrite (proj1 (proj2 (C41_reject T E L))), Q, Nat.eqb_refl. reflexivity.
  - intros v M. apply C41_length in M. unfold fv_into_inner, fv_clone. rewrite M, Nat.eqb_refl. auto.
  - intros v g M. apply C41_length in M. unfold fv_map_gadget. rewrite M, Nat.eqb_refl.
    rewrite <- (map_map g inl). rewrite (proj1 (proj2 (C41_reject U E L))), map_length, M, Nat.eqb_refl. reflexivity.
  - intros a b A C. apply C41_length in A. apply C41_length in C. assert (H : length a = length b) by lia. unfold fv_zip.
    clear A C. revert b H. induction a as [|x a IH]; intros [|y b] H; try discriminate; [split; reflexivity|].
    destruct (IH b) as [P R]; [cbn in H; lia|]. cbn [combine map fst snd]. rewrite P, R. split; reflexivity.
  - intros v w. unfold fv_write. assert (G : forall acc, fold_left (fun buf item => buf ++ w item) v acc = acc ++ flat_map w v).
    { induction v as [|x v IH]; intros acc; cbn [fold_left flat_map]; [symmetry; apply app_nil_r|]. rewrite IH, app_assoc. reflexivity. }
    apply G.
Qed.
Print Assumptions C41_total.

Example C41_ex :
  made nat 3 nat [7; 5; 3] /\ fv_try_from (E := nat) 3 [1; 2] = VLen 3 2 /\
  fv_try_collect 3 [inl 1; inr 9; inl 2; inr 8] = VErr 9 /\
  fv_zip [7; 5; 3] [1; 2; 3] = [(7, 1); (5, 2); (3, 3)].
Proof. split; [apply (made_new nat 3 nat [7; 5; 3]); reflexivity|]. repeat split. Qed.

(** ** C42 *)
(** [B] is any width the compile-time assertion of uendo.rs:18-30 allows. *)
Definition width_ok (B : nat) : Prop := Nat.even B = true /\ 130 <= B <= 160.
Lemma width_bounds B : width_ok B -> 128 < B /\ B mod 64 <> 0.
Proof.
  intros [_ H]. split; [lia|]. replace B with ((B - 128) + 2 * 64) by lia. rewrite Nat.mod_add by lia. rewrite Nat.mod_small by lia. lia.
Qed.

(** Every operation keeps the representation canonical and computes the integer
    operation: conversions are exact, shifts are multiplication modulo 2^B and
    division, bit operations and equality are those of the integers, and sampling
    reduces the drawn limbs modulo 2^B. *)
Theorem C42_refines : forall B : nat, width_ok B ->
  let ok a v := u_canonical B a /\ u_val a = v in
  ok (u_zero B) 0%N /\ ok (u_one B) 1%N /\
  (forall v, (v < 2 ^ 64)%N -> ok (u_from_u64 B v) v) /\
  (forall v, (v < 2 ^ 128)%N -> ok (u_from_u128 B v) v) /\
  (forall random, (forall i, (random i < 2 ^ 64)%N) ->
     ok (u_sample B random) (u_val (map random (seq 0 (limbs_n B))) mod 2 ^ N.of_nat B)%N) /\
  (forall a b, u_canonical B a -> u_canonical B b ->
     ok (u_and B a b) (N.land (u_val a) (u_val b)) /\
     ok (u_or B a b) (N.lor (u_val a) (u_val b)) /\
     ok (u_or_assign B a b) (N.lor (u_val a) (u_val b)) /\
     (u_eqb a b = true <-> u_val a = u_val b)) /\
  (forall a r, u_canonical B a ->
     ok (u_shl B a r) (u_val a * 2 ^ N.of_nat r mod 2 ^ N.of_nat B)%N /\
     ok (u_shr B a r) (u_val a / 2 ^ N.of_nat r)%N).
Proof.
  intros B W ok. destruct (width_bounds B W) as [HB HM].
  split; [apply zero_canon; assumption|]. split; [apply (from_u64_ok B HB HM); reflexivity|].
  split; [intros; apply from_u64_ok; assumption|]. split; [intros; apply from_u128_ok; assumption|].
  split; [intros; apply sample_ok; assumption|]. split.
  - intros a b A C. split; [apply and_ok; assumption|]. split; [apply or_ok; assumption|]. split; [apply or_assign_ok; assumption|].
    apply (eqb_ok B); assumption.
  - intros a r A. split; [apply shl_ok; assumption|apply shr_ok; assumption].
Qed.
Print Assumptions C42_refines.

(** Each integer below 2^B has exactly one canonical representation. *)
Theorem C42_canonical : forall B : nat, width_ok B ->
  (forall v, (v < 2 ^ N.of_nat B)%N -> exists a, u_canonical B a /\ u_val a = v) /\
  (forall a b, u_canonical B a -> u_canonical B b -> u_val a = u_val b -> a = b).
Proof.
  intros B W. destruct (width_bounds B W) as [HB HM]. split.
  - intros v Hv. exists (map (fun i => N.land (N.shiftr v (N.of_nat (64 * i))) (N.ones 64)) (seq 0 (limbs_n B))).
    set (a := map _ _).
    assert (Fa : Forall (fun x => (x < 2 ^ 64)%N) a).
    { apply Forall_forall. intros x Hx. apply in_map_iff in Hx. destruct Hx as (i & <- & _).
      rewrite N.land_ones. apply N.mod_lt. discriminate. }
    assert (La : length a = limbs_n B) by (unfold a; rewrite map_length, seq_length; reflexivity).
    assert (V : u_val a = v).
    { apply tb_ext. intros k. rewrite tb_val by exact Fa. pose proof (Nat.div_mod_eq k 64). pose proof (Nat.mod_upper_bound k 64).
      destruct (Nat.lt_ge_cases (k / 64) (limbs_n B)).
      - unfold a. rewrite nth_indep with (d' := N.land (N.shiftr v (N.of_nat (64 * 0))) (N.ones 64)) by (rewrite map_length, seq_length; assumption).
        rewrite (map_nth (fun i => N.land (N.shiftr v (N.of_nat (64 * i))) (N.ones 64))). rewrite seq_nth by assumption.
        rewrite tb_land, (tb_ones 64). destruct (Nat.ltb_spec (k mod 64) 64); [|lia]. rewrite andb_true_r.
        unfold tb. rewrite N.shiftr_spec by lia. f_equal. lia.
      - rewrite nth_overflow by lia. rewrite tb_0. symmetry. apply (proj2 (tb_lt v B) Hv).
        rewrite (L_eq B HB HM) in *. pose proof (Nat.div_mod_eq B 64). pose proof (Nat.mod_upper_bound B 64). lia. }
    split; [|exact V]. split; [exact La|]. split; [exact Fa|]. rewrite V. exact Hv.
  - intros a b A C V. apply (eqb_ok B HB HM a b A C) in V. clear - V. revert b V. induction a as [|x a IH]; intros [|y b]; cbn; try discriminate; auto.
    intros H. apply andb_true_iff in H. destruct H as [P Q]. apply N.eqb_eq in P. rewrite P, (IH b Q). reflexivity.
Qed.
Print Assumptions C42_canonical.

(** The bit test and bit set of the endoscalar gadget (endoscalar.rs) read and
    set bits of that integer; the gadget model of C33 works with the integer. *)
Theorem C42_bits : forall B : nat, width_ok B -> forall a i, u_canonical B a ->
  u_bit B a i = N.testbit (u_val a) (N.of_nat i) /\
  (i < B -> u_canonical B (u_set B a i) /\ u_val (u_set B a i) = N.setbit (u_val a) (N.of_nat i)).
Proof.
  intros B W a i C. destruct (width_bounds B W) as [HB HM]. split; [apply bit_ok; assumption|].
  intros Hi. apply set_ok; assumption.
Qed.
Print Assumptions C42_bits.

Example C42_ex :
  width_ok 136 /\ u_canonical 136 (u_shl 136 (u_from_u128 136 (2 ^ 128 - 1)) 9) /\
  u_val (u_shl 136 (u_from_u128 136 (2 ^ 128 - 1)) 9) = (2 ^ 136 - 2 ^ 9)%N /\
  u_val (u_shr 136 (u_shl 136 (u_from_u64 136 13) 133) 70) = (5 * 2 ^ 63)%N.
Proof.
  assert (W : width_ok 136) by (split; [reflexivity|lia]). split; [exact W|]. split.
  - apply (C42_refines 136 W). apply (C42_refines 136 W). reflexivity.
  - split; vm_compute; reflexivity.
Qed.
