(** Property theorems C01-C08 (crate ragu_arithmetic and the linear-expression
    builders). *)
From Coq Require Import List Arith NArith ZArith Bool Lia.
From Verif Require Import FieldDef GF ModDef ArithModel ArithSpec ArithProofs
  FFTModel FFTProofs MSMModel MSMSpec MSMProofs RootsModel RootsProofs.
Import ListNotations.
Open Scope f_scope.

(** ** C01 *)
Theorem C01_coeff_mul : forall (F : Field) (c d : Coeff F),
  c_value (c_mul c d) = c_value c * c_value d.
Proof. exact c_mul_ok. Qed.
Print Assumptions C01_coeff_mul.

Theorem C01_coeff_add : forall (F : Field) (c d : Coeff F),
  c_value (c_add c d) = c_value c + c_value d.
Proof. exact c_add_ok. Qed.
Print Assumptions C01_coeff_add.

(** [Two] is nonzero only in odd characteristic, hence the hypothesis. *)
Theorem C01_coeff_is_zero : forall (F : Field) (c : Coeff F), (1 + 1 : F) <> 0 ->
  (c_is_zero c = true <-> c_value c = 0).
Proof. exact c_is_zero_ok. Qed.
Print Assumptions C01_coeff_is_zero.

Example C01_ex : c_value (c_add (CNegArb (l97 5)) CTwo) = l97 94 /\ (1 + 1 : F97) <> 0.
Proof. split; [vm_compute; reflexivity|]. intros H. apply (f_equal v97) in H. vm_compute in H. discriminate. Qed.

(** ** C02 *)
Theorem C02_direct_sum : forall (F : Field) (ops : list (lcall F F)),
  ds_value (lin_run ds_add_term ds_do_gain ops ds_default) = lin_spec (fun w => w) ops.
Proof. exact direct_sum_ok. Qed.
Print Assumptions C02_direct_sum.

Theorem C02_wire_eval_sum : forall (F : Field) (one : F) (ops : list (lcall F (wire_eval F))),
  we_value (lin_run we_add_term we_do_gain ops (we_new one))
  = lin_spec (fun w => match w with WEValue v => v | WEOne => one end) ops.
Proof. exact wire_eval_sum_ok. Qed.
Print Assumptions C02_wire_eval_sum.

(* 7 + 2*(3*11 - 4) = 65 *)
Example C02_ex : ds_value (lin_run ds_add_term ds_do_gain
   [LAdd (l97 7); LGain CTwo; LTerm (l97 11) (CArb (l97 3)); LSub (l97 4)] ds_default) = l97 65.
Proof. vm_compute. reflexivity. Qed.

(** ** C03 *)
Theorem C03_eval : forall (F : Field) (p : list F) (x : F),
  eval p x = fsum (length p) (fun i => nth i p 0 * x ^ i).
Proof. exact eval_ok. Qed.
Print Assumptions C03_eval.

Theorem C03_dot : forall (F : Field) (a b : list F),
  dot a b = if (length a =? length b)%nat
            then Some (fsum (length a) (fun i => nth i a 0 * nth i b 0)) else None.
Proof.
  intros F a b. destruct (Nat.eqb_spec (length a) (length b)); [apply dot_ok|apply dot_err]; assumption.
Qed.
Print Assumptions C03_dot.

Theorem C03_geosum : forall (F : Field) (r : F) (m : N),
  geosum r m = fsum (N.to_nat m) (fun i => r ^ i).
Proof. exact geosum_ok. Qed.
Print Assumptions C03_geosum.

Example C03_ex : geosum (l97 3) 13 = l97 ((3^13 - 1) / 2) /\ geosum (l97 1) 13 = l97 13
  /\ eval [l97 1; l97 2; l97 3] (l97 10) = l97 321.
Proof. vm_compute. auto. Qed.

(** ** C04 *)
(** p = q (X - b) + p(b), coefficient by coefficient, one coefficient fewer *)
Theorem C04_factor : forall (F : Field) (p : list F) (b : F), p <> [] ->
  exists q, factor p b = Some q /\ length p = S (length q) /\
    forall i, (i < length p)%nat ->
      nth i p 0 = nth i (mul_linear b q) 0 + (match i with O => peval p b | _ => 0 end).
Proof.
  intros F p b H. destruct (factor_ok F p b H) as (q & E & _). exists q. split; [exact E|].
  apply factor_coeffs. exact E.
Qed.
Print Assumptions C04_factor.

Theorem C04_factor_iter : forall (F : Field) (p : list F) (b : F), p <> [] ->
  exists q, factor p b = Some q /\ factor_iter p b = Some (rev q) /\
    forall x, peval p x = peval q x * (x - b) + peval p b.
Proof. intros F p b H. destruct (factor_ok F p b H) as (q & E & I & _ & V). exists q. auto. Qed.
Print Assumptions C04_factor_iter.

Theorem C04_poly_with_roots : forall (F : Field) (T : TwoAdic F) (threads : nat) (roots : list F),
  (0 < threads)%nat ->
  (Nat.log2_up (length roots + 1) <= ta_S T)%nat -> (Nat.log2_up (length roots + 1) <= 32)%nat ->
  exists p, poly_with_roots T threads roots = Some p /\
    p = roots_poly roots /\ monic_product_of p roots.
Proof.
  intros F T threads roots Ht HS H32. exists (roots_poly roots).
  split; [apply poly_with_roots_ok; assumption|]. split; [reflexivity|apply roots_poly_monic].
Qed.
Print Assumptions C04_poly_with_roots.

(** two-adic constants of F_97: 96 = 2^5 * 3 *)
Lemma ta97_order : l97 28 ^ (2 ^ (5 - 1)) = - (1). Proof. vm_compute. reflexivity. Qed.
Lemma ta97_inv : l97 28 * l97 52 = 1. Proof. vm_compute. reflexivity. Qed.
Lemma ta97_half : two * l97 49 = 1. Proof. vm_compute. reflexivity. Qed.
Lemma ta97_pos : 1 <= 5. Proof. lia. Qed.
Definition TA97 : TwoAdic F97 := mkTwoAdic F97 5 (l97 28) (l97 52) (l97 49) ta97_pos ta97_order ta97_inv ta97_half.

Example C04_ex : poly_with_roots TA97 4 [l97 1; l97 2; l97 2; l97 5; l97 9]
  = Some (roots_poly [l97 1; l97 2; l97 2; l97 5; l97 9])
  /\ option_map (map v97) (poly_with_roots TA97 4 [l97 1; l97 2; l97 3]) = Some [91; 11; 91; 1]%Z
  /\ (Nat.log2_up (5 + 1) <= ta_S TA97)%nat.
Proof. split; [vm_compute; reflexivity|]. split; [vm_compute; reflexivity|]. vm_compute. lia. Qed.

(** ** C05 *)
Theorem C05_fft : forall (F : Field) (T : TwoAdic F) (M : FMod F) (threads k : nat) (d : Domain F) (a : list M),
  domain_new T k = Some d -> (k <= 32)%nat -> (0 < threads)%nat -> length a = (2 ^ k)%nat ->
  exists r, ring_fft threads d a = Some r /\ length r = (2 ^ k)%nat /\
    forall i, (i < 2 ^ k)%nat ->
      nth i r m0 = msum (2 ^ k) (fun j => mscale ((d_omega d ^ i) ^ j) (nth j a m0)).
Proof.
  intros F T M threads k d a Hd Hk Ht Ha. destruct (domain_new_inv F T k d Hd) as [_ D].
  exact (ring_fft_ok F T M threads k d a D Hk Ht Ha).
Qed.
Print Assumptions C05_fft.

Theorem C05_thread_independent : forall (F : Field) (T : TwoAdic F) (M : FMod F) (t1 t2 k : nat) (d : Domain F) (a : list M),
  domain_new T k = Some d -> (k <= 32)%nat -> (0 < t1)%nat -> (0 < t2)%nat ->
  ring_fft t1 d a = ring_fft t2 d a /\ ring_ifft t1 d a = ring_ifft t2 d a.
Proof.
  intros F T M t1 t2 k d a Hd Hk H1 H2. destruct (domain_new_inv F T k d Hd) as [_ D].
  destruct (Nat.eq_dec (length a) (2 ^ k)) as [Ha|Ha].
  - split.
    + destruct (ring_fft_ok F T M t1 k d a D Hk H1 Ha) as (r1 & E1 & L1 & N1).
      destruct (ring_fft_ok F T M t2 k d a D Hk H2 Ha) as (r2 & E2 & L2 & N2).
      rewrite E1, E2. f_equal. apply (nth_ext _ _ m0 m0); [lia|]. intros i Hi. rewrite N1, N2 by lia. reflexivity.
    + destruct (ifft_raw F T M t1 k d a D Hk H1 Ha) as (r1 & E1 & L1 & N1).
      destruct (ifft_raw F T M t2 k d a D Hk H2 Ha) as (r2 & E2 & L2 & N2).
      rewrite E1, E2. f_equal. apply (nth_ext _ _ m0 m0); [lia|]. intros i Hi. rewrite N1, N2 by lia. reflexivity.
  - unfold ring_fft, ring_ifft. rewrite (do_log _ _ _ _ D).
    rewrite !(fft_none F M) by (left; exact Ha). split; reflexivity.
Qed.
Print Assumptions C05_thread_independent.

Theorem C05_ifft_fft : forall (F : Field) (T : TwoAdic F) (M : FMod F) (t1 t2 k : nat) (d : Domain F) (a : list M),
  domain_new T k = Some d -> (k <= 32)%nat -> (0 < t1)%nat -> (0 < t2)%nat -> length a = (2 ^ k)%nat ->
  (exists e, ring_fft t1 d a = Some e /\ ring_ifft t2 d e = Some a) /\
  (exists c, ring_ifft t1 d a = Some c /\ ring_fft t2 d c = Some a).
Proof.
  intros F T M t1 t2 k d a Hd Hk H1 H2 Ha. destruct (domain_new_inv F T k d Hd) as [_ D].
  split; [apply (ifft_fft F T M t1 t2 k)|apply (fft_ifft F T M t1 t2 k)]; assumption.
Qed.
Print Assumptions C05_ifft_fft.

(** the thread count at which the FFT goes parallel: the whole part of the binary
    logarithm *)
Theorem C05_log2_floor : forall num, (0 < num)%nat ->
  (2 ^ log2_floor num <= num < 2 ^ (log2_floor num + 1))%nat.
Proof.
  assert (L : forall fuel pow num, (2 ^ pow <= num)%nat -> (num < 2 ^ (pow + fuel + 1))%nat ->
    (2 ^ log2_loop fuel pow num <= num < 2 ^ (log2_loop fuel pow num + 1))%nat).
  { induction fuel; intros pow num H H'; cbn [log2_loop].
    - rewrite Nat.add_0_r in H'. lia.
    - destruct (Nat.leb_spec (2 ^ (pow + 1)) num); [|lia]. apply IHfuel; [assumption|].
      replace (pow + 1 + fuel + 1)%nat with (pow + S fuel + 1)%nat by lia. exact H'. }
  intros num H. unfold log2_floor. apply L; [cbn; lia|].
  pose proof (Nat.pow_gt_lin_r 2 num ltac:(lia)). cbn [Nat.add]. rewrite Nat.add_1_r. cbn [Nat.pow]. lia.
Qed.
Print Assumptions C05_log2_floor.
Example C05_log2_ex : map log2_floor [1; 2; 3; 8; 100]%nat = [0; 1; 1; 3; 6]%nat.
Proof. reflexivity. Qed.

Example C05_ex : match domain_new TA97 3 with
  | Some d =>
      option_map (map v97) (d_fft 1 d (map l97 [1;2;3;4;5;6;7;8]%Z)) = Some [36; 34; 5; 16; 93; 73; 84; 55]%Z /\
      option_map (map v97) (d_fft 100 d (map l97 [1;2;3;4;5;6;7;8]%Z)) = Some [36; 34; 5; 16; 93; 73; 84; 55]%Z
  | None => False end.
Proof. vm_compute. split; reflexivity. Qed.

(** ** C06 *)
Theorem C06_domain : forall (F : Field) (T : TwoAdic F) (k : nat),
  if (k <=? ta_S T)%nat then
    exists d, domain_new T k = Some d /\ d_n d = (2 ^ k)%nat /\ d_log2_n d = k /\
      d_omega d ^ (2 ^ k) = 1 /\ (forall i, (0 < i < 2 ^ k)%nat -> d_omega d ^ i <> 1) /\
      d_omega d * d_omega_inv d = 1 /\ fnat (2 ^ k) * d_n_inv d = 1
  else domain_new T k = None.
Proof.
  intros F T k. destruct (Nat.leb_spec k (ta_S T)) as [L|L].
  - destruct (domain_new_ok F T k L) as (d & E & D). exists d.
    split; [exact E|]. split; [apply (do_n _ _ _ _ D)|]. split; [apply (do_log _ _ _ _ D)|].
    split; [apply (dom_pow_n F T k d D)|]. split.
    + intros i Hi. apply (root_distinct F (d_omega d) k); [apply (ta_two_nz F T)|apply (do_half _ _ _ _ D)|exact Hi].
    + split; [apply (do_omega_inv _ _ _ _ D)|apply (do_ninv _ _ _ _ D)].
  - unfold domain_new. destruct (Nat.leb_spec k (ta_S T)); [lia|reflexivity].
Qed.
Print Assumptions C06_domain.

Theorem C06_contains : forall (F : Field) (T : TwoAdic F) (k : nat) (d : Domain F) (x : F),
  domain_new T k = Some d ->
  (d_contains d x = true <-> exists i, (i < 2 ^ k)%nat /\ x = d_omega d ^ i).
Proof. intros F T k d x Hd. destruct (domain_new_inv F T k d Hd) as [_ D]. apply (contains_ok F T); exact D. Qed.
Print Assumptions C06_contains.

(** The Lagrange values are characterised by interpolation: they recombine the
    values of any polynomial with at most n coefficients into its value at x. A
    shorter request returns a prefix, a longer one panics. *)
Theorem C06_ell : forall (F : Field) (T : TwoAdic F) (k : nat) (d : Domain F) (x : F),
  domain_new T k = Some d ->
  (forall m, (2 ^ k < m)%nat -> ell d x m = None) /\
  ((exists i, (i < 2 ^ k)%nat /\ x = d_omega d ^ i) -> forall m, (m <= 2 ^ k)%nat -> ell d x m = Some None) /\
  ((forall i, (i < 2 ^ k)%nat -> x <> d_omega d ^ i) ->
     exists ls, length ls = (2 ^ k)%nat /\
       (forall m, (m <= 2 ^ k)%nat -> ell d x m = Some (Some (firstn m ls))) /\
       forall p : list F, (length p <= 2 ^ k)%nat ->
         fsum (2 ^ k) (fun i => peval p (d_omega d ^ i) * nth i ls 0) = peval p x).
Proof.
  intros F T k d x Hd. destruct (domain_new_inv F T k d Hd) as [_ D].
  pose proof (contains_ok F T k d x D) as HC. split; [|split].
  - intros m Hm. unfold ell. rewrite (do_n _ _ _ _ D). destruct (Nat.leb_spec m (2 ^ k)); [lia|reflexivity].
  - intros Hin m Hm. apply (ell_ok F T k d x m D Hm). apply HC. exact Hin.
  - intros Hout. assert (EC : d_contains d x = false).
    { destruct (d_contains d x); [|reflexivity]. destruct (proj1 HC eq_refl) as (i & Hi & E).
      exfalso. exact (Hout i Hi E). }
    destruct (proj2 (ell_ok F T k d x (2 ^ k) D (Nat.le_refl _)) EC) as (ls & E & L & N).
    exists ls. split; [exact L|]. split.
    + intros m Hm. destruct (proj2 (ell_ok F T k d x m D Hm) EC) as (ls' & E' & L' & N').
      rewrite E'. do 2 f_equal. apply (nth_ext _ _ 0 0); [rewrite firstn_length; lia|].
      intros i Hi. rewrite L' in Hi. rewrite nth_firstn_lt by exact Hi.
      destruct (N i ltac:(lia)) as [-> _]. destruct (N' i Hi) as [-> _]. reflexivity.
    + apply (ell_interp F T k d x ls D E).
Qed.
Print Assumptions C06_ell.

Example C06_ex : match domain_new TA97 3 with
  | Some d => d_contains d (l97 33) = true /\ d_contains d (l97 5) = false /\
      option_map (option_map (map v97)) (ell d (l97 5) 3) = Some (Some [82; 47; 32]%Z)
  | None => False end.
Proof. vm_compute. repeat split. Qed.

(** ** C07 *)
Theorem C07_bitreverse : forall (l : nat) (n : N), (l <= 32)%nat -> (n < 2 ^ N.of_nat l)%N ->
  (bitreverse n (N.of_nat l) < 2 ^ N.of_nat l)%N /\
  bitreverse (bitreverse n (N.of_nat l)) (N.of_nat l) = n /\
  forall i, (i < l)%nat -> N.testbit (bitreverse n (N.of_nat l)) (N.of_nat i) = N.testbit n (N.of_nat (l - 1 - i)).
Proof.
  intros l n Hl Hn. split; [apply bitreverse_lt; exact Hl|]. split; [apply bitreverse_invol; assumption|].
  intros i Hi. rewrite bitreverse_testbit by exact Hl. destruct (Nat.ltb_spec i l); [reflexivity|lia].
Qed.
Print Assumptions C07_bitreverse.

Theorem C07_swap_loop : forall (F : Field) (M : FMod F) (a : list M) (l : nat),
  (l <= 32)%nat -> length a = (2 ^ l)%nat ->
  length (bitrev_loop a l) = length a /\
  forall i, (i < 2 ^ l)%nat -> nth_error (bitrev_loop a l) i
     = nth_error a (N.to_nat (bitreverse (N.of_nat i) (N.of_nat l))).
Proof.
  intros F M a l Hl Ha. destruct (bitrev_loop_ok F M a l Hl Ha) as [L N]. split; [exact L|].
  intros i Hi. apply N. lia.
Qed.
Print Assumptions C07_swap_loop.

Example C07_ex : bitreverse 6 5 = 12%N /\
  map v97 (bitrev_loop (M := FieldMod F97) (map l97 [0;1;2;3;4;5;6;7]%Z) 3) = [0;4;2;6;1;5;3;7]%Z.
Proof. split; vm_compute; reflexivity. Qed.

(** ** C08 *)
Theorem C08_msm : forall (G : CMon) (num_bits : nat) (scalars : list (list N)) (bases : list G),
  Forall (scalar_repr num_bits) scalars -> length scalars = length bases ->
  msm num_bits scalars bases = Some (naive_msm (map (byte_value 0) scalars) bases).
Proof. intros G nb cs bases H _. apply msm_ok. exact H. Qed.
Print Assumptions C08_msm.

(** unequal lengths: the shorter list silently wins *)
Theorem C08_msm_truncates : forall (G : CMon) (num_bits : nat) (scalars : list (list N)) (bases : list G),
  Forall (scalar_repr num_bits) scalars ->
  let m := Nat.min (length scalars) (length bases) in
  msm num_bits scalars bases
  = Some (naive_msm (map (byte_value 0) (firstn m scalars)) (firstn m bases)).
Proof.
  intros G nb cs bases H m. rewrite msm_ok by exact H. f_equal. unfold m. clear.
  revert bases. induction cs as [|c cs IH]; intros bases; [reflexivity|].
  destruct bases as [|p ps]; [reflexivity|]. cbn [length Nat.min firstn map naive_msm]. rewrite <- IH. reflexivity.
Qed.
Print Assumptions C08_msm_truncates.

(** the window width: 1 and 3 for few points, then the natural logarithm rounded
    up, at most 16 (Euler's number between its nine-digit bounds) *)
Theorem C08_window : forall n : nat,
  ((n < 4)%nat -> bucket_lookup n = 1%nat) /\
  ((4 <= n < 32)%nat -> bucket_lookup n = 3%nat) /\
  ((32 <= n)%nat -> let k := bucket_lookup n in
     (4 <= k <= 16)%nat /\
     (2718281829 ^ N.of_nat (k - 1) < N.of_nat n * (10 ^ 9) ^ N.of_nat (k - 1))%N /\
     ((k < 16)%nat -> (N.of_nat n * (10 ^ 9) ^ N.of_nat k < 2718281828 ^ N.of_nat k)%N)).
Proof.
  intros n. unfold bucket_lookup, ln_thresholds. cbn [bucket_go Nat.add].
  split; [|split]; intros H.
  - destruct (N.ltb_spec (N.of_nat n) 4); [reflexivity|lia].
  - destruct (N.ltb_spec (N.of_nat n) 4); [lia|]. destruct (N.ltb_spec (N.of_nat n) 32); [reflexivity|lia].
  - destruct (N.ltb_spec (N.of_nat n) 4); [lia|]. destruct (N.ltb_spec (N.of_nat n) 32); [lia|].
    repeat (match goal with |- context [N.ltb (N.of_nat n) ?t] => destruct (N.ltb_spec (N.of_nat n) t) end;
      [cbv zeta; split; [lia|split; [|intros _]];
       match goal with |- context [((10 ^ 9) ^ ?e)%N] =>
         let v := eval vm_compute in ((10 ^ 9) ^ e)%N in change ((10 ^ 9) ^ e)%N with v end;
       match goal with |- context [(2718281829 ^ ?e)%N] =>
         let v := eval vm_compute in (2718281829 ^ e)%N in change (2718281829 ^ e)%N with v
       | |- context [(2718281828 ^ ?e)%N] =>
         let v := eval vm_compute in (2718281828 ^ e)%N in change (2718281828 ^ e)%N with v end; lia|]).
    cbv zeta; split; [lia|split; [|lia]].
    match goal with |- context [((10 ^ 9) ^ ?e)%N] =>
      let v := eval vm_compute in ((10 ^ 9) ^ e)%N in change ((10 ^ 9) ^ e)%N with v end.
    match goal with |- context [(2718281829 ^ ?e)%N] =>
      let v := eval vm_compute in (2718281829 ^ e)%N in change (2718281829 ^ e)%N with v end.
    lia.
Qed.
Print Assumptions C08_window.
Example C08_window_ex : map bucket_lookup [3; 4; 31; 32; 54; 55; 1097]%nat = [1; 3; 3; 4; 4; 5; 8]%nat.
Proof. vm_compute. reflexivity. Qed.

(** the integers modulo 97 under addition, with 16-bit scalars *)
Definition add97 : CMon :=
  mkCMon (FieldMod F97) m0 madd (madd_comm _ (FieldMod F97)) (madd_assoc _ (FieldMod F97)) (madd_0 _ (FieldMod F97)).
Example C08_ex : msm (G := add97) 16 [[57; 48]; [255; 255]; [0; 0]; [1; 2]; [7; 9]]%N
    (map l97 [5; 11; 3; 4; 11]%Z) = Some (l97 (12345 * 5 + 65535 * 11 + 513 * 4 + 2311 * 11))
  /\ scalar_repr 16 [57; 48]%N.
Proof.
  split; [vm_compute; reflexivity|]. split; [repeat constructor|]. vm_compute. reflexivity.
Qed.
