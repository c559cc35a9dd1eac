(** Masks and stage polynomials. *)
From Coq Require Import List Arith NArith Bool Lia Permutation Field.
From Verif Require Import FieldDef ModDef ArithModel ArithProofs FFTModel FFTProofs SparseModel SparseSpec SparseProofs SparseProofs2
  CircModel SyModel TraceModel CircSpec CircProofs CircProofs2 TraceProofs RegModel RegSpec StageModel StageSpec.
Import ListNotations.
Local Open Scope nat_scope.

Lemma ceil2 v : stage_gates v = (v + 1) / 2.
Proof.
  unfold stage_gates. pose proof (Nat.div_mod v 2 ltac:(lia)) as E. pose proof (Nat.mod_upper_bound v 2 ltac:(lia)) as B.
  destruct (Nat.eqb_spec (v mod 2) 0) as [H|H].
  - apply (Nat.div_unique (v + 1) 2 (v / 2 + 0) 1); lia.
  - apply (Nat.div_unique (v + 1) 2 (v / 2 + 1) 0); lia.
Qed.
Lemma ceil2_bounds v : v <= 2 * stage_gates v <= v + 1.
Proof. rewrite ceil2. pose proof (Nat.div_mod (v + 1) 2 ltac:(lia)). pose proof (Nat.mod_upper_bound (v + 1) 2 ltac:(lia)). lia. Qed.

Lemma skip_gates_rev l : skip_gates (rev l) = 1 + list_sum (map (fun v => (v + 1) / 2) l).
Proof.
  assert (G : forall l, skip_gates l = 1 + list_sum (map (fun v => (v + 1) / 2) l)).
  { intros l'. induction l' as [|v l' IH]; [reflexivity|]. cbn [skip_gates map]. rewrite IH, ceil2.
    change (list_sum ((v + 1) / 2 :: ?x)) with ((v + 1) / 2 + list_sum x). lia. }
  rewrite G. f_equal. rewrite map_rev. induction (map (fun v => (v + 1) / 2) l) as [|a x IH]; [reflexivity|].
  cbn [rev]. rewrite list_sum_app, IH. change (list_sum (a :: x)) with (a + list_sum x). change (list_sum [a]) with (a + 0). lia.
Qed.
Lemma skip_start vals i : skip_gates (rev (firstn i vals)) = stage_start vals i.
Proof. apply skip_gates_rev. Qed.

Lemma gate_of_lt n k : k < 4 * n -> gate_of n k < n.
Proof. intros H. unfold gate_of. destruct (Nat.ltb_spec k n), (Nat.ltb_spec k (2 * n)), (Nat.ltb_spec k (3 * n)); lia. Qed.
Lemma gate_of_rev n k : k < 4 * n -> gate_of n (4 * n - 1 - k) = gate_of n k.
Proof.
  intros H. unfold gate_of.
  destruct (Nat.ltb_spec k n), (Nat.ltb_spec k (2 * n)), (Nat.ltb_spec k (3 * n)),
    (Nat.ltb_spec (4 * n - 1 - k) n), (Nat.ltb_spec (4 * n - 1 - k) (2 * n)), (Nat.ltb_spec (4 * n - 1 - k) (3 * n)); lia.
Qed.

Section MaskP.
  Variable F : Field.
  Add Field FFmk : (f_theory F).
  Open Scope f_scope.

  (** ** the four exponents of each gate *)
  Lemma fsum_gates n (f : nat -> F) :
    fsum (4 * n) f = fsum n (fun j => f j + f (2 * n - 1 - j)%nat + f (2 * n + j)%nat + f (4 * n - 1 - j)%nat).
  Proof.
    replace (4 * n)%nat with (n + (n + (n + n)))%nat by lia. rewrite !fsum_split. rewrite !fsum_add.
    rewrite <- (fsum_rev F n (fun i => f (n + i)%nat)). rewrite <- (fsum_rev F n (fun i => f (n + (n + (n + i)))%nat)).
    rewrite (fsum_ext F n (fun i => f (n + (n - 1 - i))%nat) (fun i => f (2 * n - 1 - i)%nat)) by (intros i Hi; f_equal; lia).
    rewrite (fsum_ext F n (fun i => f (n + (n + (n + (n - 1 - i))))%nat) (fun i => f (n + (n + (n + n)) - 1 - i)%nat)) by (intros i Hi; f_equal; lia).
    rewrite (fsum_ext F n (fun i => f (n + (n + i))%nat) (fun i => f (2 * n + i)%nat)) by (intros i Hi; f_equal; lia).
    ring.
  Qed.

  (** ** project *)
  Lemma powers_ok (p : F) : forall m (cur : F), powers p cur m = (map (fun i => cur * p ^ i) (seq 0 m), cur * p ^ m).
  Proof.
    induction m as [|m IH]; intros cur; cbn [powers].
    - cbn [fpow seq map]. f_equal. ring.
    - rewrite IH. cbn [seq map fpow]. f_equal; [|ring]. f_equal; [ring|]. rewrite <- seq_shift, map_map.
      apply map_ext. intros i. cbn [fpow]. ring.
  Qed.
  Lemma nth_upd0 (l : list F) i v j : (i < length l)%nat -> nth j (upd l i v) 0 = if Nat.eqb j i then v else nth j l 0.
  Proof. intros Hi. rewrite CircProofs2.nth_upd. destruct (Nat.ltb_spec i (length l)); [|lia]. now rewrite andb_true_r. Qed.
  Lemma clear_length : forall m (v : list F) j, length (clear_range v j m) = length v.
  Proof. induction m as [|m IH]; intros v j; cbn [clear_range]; auto. now rewrite IH, upd_length. Qed.
  Lemma clear_nth : forall m (v : list F) j i, (j + m <= length v)%nat ->
    nth i (clear_range v j m) 0 = if (j <=? i)%nat && (i <? j + m)%nat then 0 else nth i v 0.
  Proof.
    induction m as [|m IH]; intros v j i H; cbn [clear_range].
    - destruct (Nat.leb_spec j i), (Nat.ltb_spec i (j + 0)); cbn [andb]; auto; lia.
    - rewrite IH by (rewrite upd_length; lia). rewrite nth_upd0 by lia.
      destruct (Nat.leb_spec (S j) i), (Nat.ltb_spec i (S j + m)), (Nat.leb_spec j i), (Nat.ltb_spec i (j + S m)), (Nat.eqb_spec i j); cbn [andb]; auto; lia.
  Qed.

  Variables (n skip num : nat).
  Hypothesis skip_pos : (1 <= skip)%nat.
  Hypothesis fits : (skip + num <= n)%nat.

  Lemma project_ok (p : F) : exists q, mask_project n (skip, num) p = Some q /\ wf 0 (4 * n) q /\
    forall k, coeff_at q k = if (k <? 4 * n)%nat then (if active skip num (gate_of n k) then 0 else p ^ k) else 0.
  Proof.
    unfold mask_project. rewrite !powers_ok. cbn [fst snd].
    set (V := fun (f : nat -> F) => map f (seq 0 n)).
    assert (L : forall v : list F, length v = n -> length (clear_range (upd v 0 0) skip num) = n) by (intros v Hv; now rewrite clear_length, upd_length).
    assert (N : forall (v : list F) i, length v = n -> nth i (clear_range (upd v 0 0) skip num) 0 = if active skip num i then 0 else nth i v 0).
    { intros v i Hv. rewrite clear_nth by (rewrite upd_length; lia). rewrite nth_upd0 by lia. unfold active.
      destruct (i =? 0)%nat; cbn [orb]; [destruct ((skip <=? i)%nat && (i <? skip + num)%nat); reflexivity|reflexivity]. }
    assert (S1 : forall f : nat -> F, length (map f (seq 0 n)) = n) by (intros; now rewrite map_length, seq_length).
    match goal with |- context [wiring_build _ _ ?A ?B ?C ?D] =>
      destruct (wiring_build_ok F n A B C D) as (q & E & W & Cq); try (rewrite L; rewrite ?rev_length; auto; lia) end.
    exists q. split; [exact E|]. split; [exact W|]. intros k. rewrite Cq. unfold trace_coeff, gate_of.
    assert (NM : forall (f : nat -> F) i, (i < n)%nat -> nth i (map f (seq 0 n)) 0 = f i).
    { intros f i Hi. rewrite (nth_indep _ 0 (f 0%nat)) by (rewrite S1; lia). rewrite map_nth, seq_nth by lia. reflexivity. }
    assert (NR : forall (f : nat -> F) i, (i < n)%nat -> nth i (rev (map f (seq 0 n))) 0 = f (n - 1 - i)%nat).
    { intros f i Hi. rewrite rev_nth by (rewrite S1; lia). rewrite S1. rewrite NM by lia. f_equal. lia. }
    destruct (Nat.ltb_spec k n); [destruct (Nat.ltb_spec k (4 * n)); [|lia]|].
    { rewrite N by auto. rewrite NM by auto. destruct (active skip num k); auto. ring. }
    destruct (Nat.ltb_spec k (2 * n)); [destruct (Nat.ltb_spec k (4 * n)); [|lia]|].
    { rewrite N by (rewrite rev_length; auto). rewrite NR by lia. destruct (active skip num (2 * n - 1 - k)); auto.
      replace (1 * p ^ n * p ^ (n - 1 - (2 * n - 1 - k))) with (p ^ n * p ^ (n - 1 - (2 * n - 1 - k))) by ring.
      rewrite <- fpow_add. f_equal. lia. }
    destruct (Nat.ltb_spec k (3 * n)); [destruct (Nat.ltb_spec k (4 * n)); [|lia]|].
    { rewrite N by auto. rewrite NM by lia. destruct (active skip num (k - 2 * n)); auto.
      replace (1 * p ^ n * p ^ n * p ^ (k - 2 * n)) with (p ^ n * (p ^ n * p ^ (k - 2 * n))) by ring. rewrite <- !fpow_add. f_equal. lia. }
    destruct (Nat.ltb_spec k (4 * n)); auto.
    rewrite N by (rewrite rev_length; auto). rewrite NR by lia. destruct (active skip num (4 * n - 1 - k)); auto.
    replace (1 * p ^ n * p ^ n * p ^ n * p ^ (n - 1 - (4 * n - 1 - k))) with (p ^ n * (p ^ n * (p ^ n * p ^ (n - 1 - (4 * n - 1 - k))))) by ring.
    rewrite <- !fpow_add. f_equal. lia.
  Qed.
  Lemma project_eval (p z : F) : exists q, mask_project n (skip, num) p = Some q /\ wf 0 (4 * n) q /\
    p_eval (4 * n) q z = mask_poly n skip num (p * z).
  Proof.
    destruct (project_ok p) as (q & E & W & C). exists q. split; auto. split; auto. rewrite SparseProofs.eval_ok by auto.
    unfold mask_poly. apply fsum_ext. intros k Hk. rewrite C. destruct (Nat.ltb_spec k (4 * n)); [|lia].
    destruct (active skip num (gate_of n k)); [ring|]. now rewrite fpow_mul_base.
  Qed.

  (** ** the closed form *)
  Definition gsum (t : F) (j : nat) : F := t ^ j + t ^ (2 * n - 1 - j) + t ^ (2 * n + j) + t ^ (4 * n - 1 - j).
  Lemma mask_poly_gates (t : F) : mask_poly n skip num t = fsum n (fun j => if active skip num j then 0 else gsum t j).
  Proof.
    unfold mask_poly. rewrite fsum_gates. apply fsum_ext. intros j Hj. unfold gsum.
    assert (G : gate_of n j = j /\ gate_of n (2 * n - 1 - j) = j /\ gate_of n (2 * n + j) = j /\ gate_of n (4 * n - 1 - j) = j).
    { unfold gate_of. repeat match goal with |- context [?a <? ?b] => destruct (Nat.ltb_spec a b); try lia end. }
    destruct G as (-> & -> & -> & ->). destruct (active skip num j); [ring|reflexivity].
  Qed.
  Lemma fsum_inactive (f : nat -> F) :
    fsum n (fun j => if active skip num j then 0 else f j) = fsum n f - f 0%nat - fsum num (fun i => f (skip + i)%nat).
  Proof.
    replace n with (1 + ((skip - 1) + (num + (n - skip - num))))%nat by lia. rewrite !fsum_split. cbn [fsum Nat.add].
    rewrite (fsum_ext F (skip - 1) (fun i => if active skip num (S i) then 0 else f (S i)) (fun i => f (S i))).
    2:{ intros i Hi. unfold active. cbn [Nat.eqb orb]. destruct (Nat.leb_spec skip (S i)); [lia|]. reflexivity. }
    rewrite (fsum_ext F num (fun i => if active skip num (S (skip - 1 + i)) then 0 else f (S (skip - 1 + i))) (fun i => 0)).
    2:{ intros i Hi. unfold active. cbn [Nat.eqb orb]. destruct (Nat.leb_spec skip (S (skip - 1 + i))); [|lia].
        destruct (Nat.ltb_spec (S (skip - 1 + i)) (skip + num)); [|lia]. reflexivity. }
    rewrite (fsum_ext F (n - skip - num) (fun i => if active skip num (S (skip - 1 + (num + i))) then 0 else f (S (skip - 1 + (num + i)))) (fun i => f (S (skip - 1 + (num + i))))).
    2:{ intros i Hi. unfold active. cbn [Nat.eqb orb]. destruct (Nat.ltb_spec (S (skip - 1 + (num + i))) (skip + num)); [lia|].
        rewrite andb_false_r. reflexivity. }
    rewrite (fsum_ext F num (fun i => f (S (skip - 1 + i))) (fun i => f (skip + i)%nat)) by (intros i Hi; f_equal; lia).
    rewrite (fsum_zero F num (fun _ => 0)) by auto. unfold active. cbn [Nat.eqb orb]. ring.
  Qed.

  Lemma sxy_ok (x y : F) : mask_sxy n (skip, num) x y = mask_poly n skip num (x * y).
  Proof.
    assert (N : (1 <= n)%nat) by lia.
    assert (Z : mask_poly n skip num (0 : F) = 0).
    { unfold mask_poly. apply fsum_zero. intros k Hk. destruct k as [|k].
      - unfold gate_of. destruct (Nat.ltb_spec 0 n); [|lia]. reflexivity.
      - rewrite fpow_zero by lia. destruct (active skip num (gate_of n (S k))); reflexivity. }
    unfold mask_sxy. destruct (feqb x 0) eqn:Ex.
    { apply feqb_true in Ex. subst. cbn [orb]. replace (0 * y) with (0 : F) by ring. auto. }
    destruct (feqb y 0) eqn:Ey.
    { apply feqb_true in Ey. subst. cbn [orb]. replace (x * 0) with (0 : F) by ring. auto. }
    cbn [orb fst snd]. apply feqb_false in Ex, Ey. assert (T : x * y <> 0) by (intros E; destruct (fmul_integral F _ _ E); auto).
    set (t := x * y) in *. clearbody t. clear Ex Ey x y Z.
    rewrite mask_poly_gates, fsum_inactive.
    unfold mask_global, mask_notch. rewrite !geosum_ok, !Nnat.Nat2N.id.
    assert (I : t * finv t = 1) by (field; exact T).
    assert (P : forall a b, (b <= a)%nat -> t ^ a * finv t ^ b = t ^ (a - b)).
    { intros a b H. replace a with ((a - b) + b)%nat at 1 by lia. rewrite fpow_add.
      transitivity (t ^ (a - b) * (t * finv t) ^ b); [rewrite fpow_mul_base; ring|]. rewrite I, fpow_one. ring. }
    replace (n * 4)%nat with (4 * n)%nat by lia. rewrite (fsum_gates n (fun k => t ^ k)). fold (gsum t).
    assert (G0 : gsum t 0 = (t ^ (2 * n) + 1) * (t ^ (2 * n) * finv t + 1)).
    { unfold gsum. replace (t ^ (2 * n) * finv t) with (t ^ (2 * n - 1)) by (rewrite <- (P (2 * n)%nat 1%nat) by lia; cbn [fpow]; ring).
      rewrite !Nat.sub_0_r, Nat.add_0_r. replace (4 * n - 1)%nat with (2 * n + (2 * n - 1))%nat by lia. rewrite fpow_add. cbn [fpow]. ring. }
    rewrite <- G0. f_equal.
    rewrite (P (2 * n)%nat (skip + num)%nat) by lia.
    rewrite <- fsum_scale.
    transitivity (fsum num (fun i => (1 + t ^ (2 * n)) * t ^ skip * t ^ i) + fsum num (fun i => (1 + t ^ (2 * n)) * t ^ (2 * n - (skip + num)) * t ^ i)).
    - rewrite <- fsum_add. apply fsum_ext. intros i Hi. ring.
    - rewrite <- (fsum_rev F num (fun i => (1 + t ^ (2 * n)) * t ^ (2 * n - (skip + num)) * t ^ i)). rewrite <- fsum_add. apply fsum_ext. intros i Hi.
      unfold gsum. replace (2 * n - 1 - (skip + i))%nat with ((2 * n - (skip + num)) + (num - 1 - i))%nat by lia.
      replace (4 * n - 1 - (skip + i))%nat with (2 * n + ((2 * n - (skip + num)) + (num - 1 - i)))%nat by lia.
      rewrite !fpow_add. ring.
  Qed.

  (** ** enforcement *)
  Lemma mask_revdot (r : poly F) y : wf 0 (4 * n) r ->
    exists q, mask_project n (skip, num) y = Some q /\
      p_revdot (4 * n) r q = fsum (4 * n) (fun k => (if active skip num (gate_of n k) then 0 else coeff_at r (4 * n - 1 - k)) * y ^ k).
  Proof.
    intros W. destruct (project_ok y) as (q & E & Wq & C). exists q. split; auto. rewrite revdot_ok by auto.
    rewrite <- fsum_rev. apply fsum_ext. intros k Hk. rewrite C. replace (4 * n - 1 - (4 * n - 1 - k))%nat with k by lia.
    destruct (Nat.ltb_spec k (4 * n)); [|lia]. destruct (active skip num (gate_of n k)); ring.
  Qed.
  Lemma mask_enforces (r : poly F) ys : wf 0 (4 * n) r -> NoDup ys -> (4 * n <= length ys)%nat ->
    (forall y q, In y ys -> mask_project n (skip, num) y = Some q -> p_revdot (4 * n) r q = 0) ->
    forall k, (k < 4 * n)%nat -> active skip num (gate_of n k) = false -> coeff_at r k = 0.
  Proof.
    intros W ND L H k Hk A.
    pose proof (coeffs_zero F (4 * n) (fun k => if active skip num (gate_of n k) then 0 else coeff_at r (4 * n - 1 - k)) ys ND L) as U.
    assert (G : forall i, (i < 4 * n)%nat -> (if active skip num (gate_of n i) then 0 else coeff_at r (4 * n - 1 - i)) = 0).
    { apply U. intros y Hy. destruct (mask_revdot r y W) as (q & E & V). rewrite <- V. apply (H y q Hy E). }
    specialize (G (4 * n - 1 - k)%nat ltac:(lia)). rewrite gate_of_rev, A in G by lia. replace (4 * n - 1 - (4 * n - 1 - k))%nat with k in G by lia. exact G.
  Qed.
  Lemma mask_passes (r : poly F) y q : wf 0 (4 * n) r ->
    (forall k, (k < 4 * n)%nat -> active skip num (gate_of n k) = false -> coeff_at r k = 0) ->
    mask_project n (skip, num) y = Some q -> p_revdot (4 * n) r q = 0.
  Proof.
    intros W H E. destruct (mask_revdot r y W) as (q' & E' & V). rewrite E in E'. injection E' as <-. rewrite V.
    apply fsum_zero. intros k Hk. destruct (active skip num (gate_of n k)) eqn:A; [ring|].
    rewrite (H (4 * n - 1 - k)%nat); [ring|lia|]. rewrite gate_of_rev by lia. exact A.
  Qed.
End MaskP.
