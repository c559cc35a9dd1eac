(** Property theorems C09-C12 (crate ragu_circuits, polynomials). *)
From Coq Require Import List Arith NArith ZArith Bool Lia.
From Verif Require Import FieldDef GF ModDef ArithModel FFTProofs SparseModel SparseSpec SparseProofs
  SparseProofs2 TModel TProofs.
Import ListNotations.
Open Scope f_scope.

(** ** C09 *)
Theorem C09_invariants : forall (F : Field) (n : nat) (p : poly F), reach n p ->
  wf 0 (4 * n) p /\ check_blocks (4 * n) 0 0 p = true.
Proof.
  intros F n p H. assert (W : wf 0 (4 * n) p).
  { induction H.
    - exact I.
    - unfold from_coeffs in H. destruct (length cs <=? 4 * n); [|discriminate].
      apply from_blocks_some in H. destruct H; subst; auto.
    - unfold p_random in H. destruct ((0 <? 4 * n) && (length cs =? 4 * n)); [|discriminate].
      apply from_blocks_some in H. destruct H; subst; auto.
    - unfold trace_build, view_build in H. destruct (_ && _); [|discriminate].
      apply from_blocks_some in H. destruct H; subst; auto.
    - unfold wiring_build, view_build in H. destruct (_ && _); [|discriminate].
      apply from_blocks_some in H. destruct H; subst; auto.
    - apply scale_ok; auto.
    - apply negate_ok; auto.
    - apply dilate_ok; auto.
    - destruct (add_ok F (4 * n) p q) as (r' & E & W & _); auto. rewrite E in H1. injection H1 as <-. auto.
    - destruct (sub_ok F (4 * n) p q) as (r' & E & W & _); auto. rewrite E in H1. injection H1 as <-. auto.
    - destruct (fold_ok F (4 * n) c ps) as (r' & E & W & _).
      + apply Forall_forall. auto.
      + rewrite E in H1. injection H1 as <-. auto. }
  split; auto. now apply check_iff.
Qed.
Print Assumptions C09_invariants.

(** No operation on reachable polynomials panics; constructors panic exactly on
    over-long input. *)
Theorem C09_no_panic : forall (F : Field) (n : nat) (p q : poly F) (c : F) (ps : list (poly F)),
  reach n p -> reach n q -> (forall r, In r ps -> reach n r) ->
  p_add (4 * n) p q <> None /\ p_sub (4 * n) p q <> None /\ p_fold (4 * n) ps c <> None.
Proof.
  intros F n p q c ps Hp Hq Hps.
  assert (W : forall r : poly F, reach n r -> wf 0 (4 * n) r) by (intros; now apply C09_invariants).
  destruct (add_ok F (4 * n) p q) as (r1 & E1 & _); auto.
  destruct (sub_ok F (4 * n) p q) as (r2 & E2 & _); auto.
  destruct (fold_ok F (4 * n) c ps) as (r3 & E3 & _); [apply Forall_forall; auto|].
  repeat split; congruence.
Qed.
Print Assumptions C09_no_panic.

Theorem C09_constructors : forall (F : Field) (n : nat) (cs a b c d : list F),
  (from_coeffs (4 * n) cs <> None <-> (length cs <= 4 * n)%nat) /\
  (trace_build (4 * n) n a b c d <> None <->
     (length a <= n /\ length b <= n /\ length c <= n /\ length d <= n)%nat) /\
  (wiring_build (4 * n) n a b c d <> None <->
     (length a <= n /\ length b <= n /\ length c <= n /\ length d <= n)%nat).
Proof.
  intros F n cs a b c d. split; [|split].
  - split.
    + unfold from_coeffs. destruct (Nat.leb_spec (length cs) (4 * n)); congruence || auto.
    + intros H. destruct (from_coeffs_ok F (4 * n) cs H) as (p & E & _). congruence.
  - split.
    + intros H. unfold trace_build in H. destruct (le_lt_dec (length a) n); [|rewrite view_build_panics in H by lia; congruence].
      destruct (le_lt_dec (length b) n); [|rewrite view_build_panics in H by lia; congruence].
      destruct (le_lt_dec (length c) n); [|rewrite view_build_panics in H by lia; congruence].
      destruct (le_lt_dec (length d) n); [|rewrite view_build_panics in H by lia; congruence].
      auto.
    + intros (Ha & Hb & Hc & Hd). destruct (trace_build_ok F n a b c d) as (p & E & _); auto. congruence.
  - split.
    + intros H. unfold wiring_build in H. destruct (le_lt_dec (length a) n); [|rewrite view_build_panics in H by lia; congruence].
      destruct (le_lt_dec (length b) n); [|rewrite view_build_panics in H by lia; congruence].
      destruct (le_lt_dec (length c) n); [|rewrite view_build_panics in H by lia; congruence].
      destruct (le_lt_dec (length d) n); [|rewrite view_build_panics in H by lia; congruence].
      auto.
    + intros (Ha & Hb & Hc & Hd). destruct (wiring_build_ok F n a b c d) as (p & E & _); auto. congruence.
Qed.
Print Assumptions C09_constructors.

(** Runs produced by the splitter start and end with a non-zero coefficient and
    hold no gap longer than the tolerance. *)
Theorem C09_compact : forall (F : Field) NC (cs : list F) p, from_coeffs NC cs = Some p ->
  Forall (compact F) p.
Proof.
  intros F NC cs p H. unfold from_coeffs in H. destruct (length cs <=? NC); [|discriminate].
  apply from_blocks_some in H. destruct H as [-> _]. apply extend_runs_compact.
Qed.
Print Assumptions C09_compact.

(* two runs separated by a gap of five zeros, one gap of two kept inline *)
Example C09_ex : map (fun b => (fst b, map v97 (snd b)))
    (match from_coeffs 16%nat (map l97 [0;3;0;0;4;0;0;0;0;0;5;0]%Z) with Some p => p | None => [] end)
  = [(1%nat, [3;0;0;4]%Z); (10%nat, [5]%Z)].
Proof. vm_compute. reflexivity. Qed.
Example C09_ex_reach : reach (F:=F97) 4
   (p_scale (l97 7) (match from_coeffs 16%nat (map l97 [0;3;0;0;4;0;0;0;0;0;5;0]%Z) with Some p => p | None => [] end)).
Proof. apply r_scale. eapply r_coeffs with (cs := map l97 [0;3;0;0;4;0;0;0;0;0;5;0]%Z). vm_compute. reflexivity. Qed.

(** ** C10 *)
Theorem C10_coeff_ops : forall (F : Field) NC (p q : poly F) (c z : F) r s,
  wf 0 NC p -> wf 0 NC q -> p_add NC p q = Some r -> p_sub NC p q = Some s ->
  forall k, coeff_at r k = coeff_at p k + coeff_at q k
         /\ coeff_at s k = coeff_at p k - coeff_at q k
         /\ coeff_at (p_scale c p) k = c * coeff_at p k
         /\ coeff_at (p_negate p) k = - coeff_at p k
         /\ coeff_at (p_dilate z p) k = coeff_at p k * z ^ k.
Proof.
  intros F NC p q c z r s Wp Wq Er Es k.
  destruct (add_ok F NC p q Wp Wq) as (r' & E & _ & C). rewrite E in Er. injection Er as <-.
  destruct (sub_ok F NC p q Wp Wq) as (s' & E' & _ & C'). rewrite E' in Es. injection Es as <-.
  repeat split; auto.
  - eapply scale_ok; eauto. - eapply negate_ok; eauto. - eapply dilate_ok; eauto.
Qed.
Print Assumptions C10_coeff_ops.

Theorem C10_from_coeffs : forall (F : Field) NC (cs : list F) p, from_coeffs NC cs = Some p ->
  forall k, coeff_at p k = nth k cs 0.
Proof.
  intros F NC cs p H. unfold from_coeffs in H. destruct (Nat.leb_spec (length cs) NC); [|discriminate].
  destruct (from_coeffs_ok F NC cs) as (p' & E & _ & C & _); auto.
  unfold from_coeffs in E. destruct (Nat.leb_spec (length cs) NC); [|lia]. rewrite E in H. injection H as <-. auto.
Qed.
Print Assumptions C10_from_coeffs.

Theorem C10_fold : forall (F : Field) NC (ps : list (poly F)) (c : F) r,
  Forall (wf 0 NC) ps -> p_fold NC ps c = Some r ->
  forall k, coeff_at r k = fsum (length ps) (fun i => c ^ (length ps - 1 - i) * coeff_at (nth i ps []) k).
Proof.
  intros F NC ps c r H E k. destruct (fold_ok F NC c ps H) as (r' & E' & _ & C). rewrite E in E'. injection E' as <-. auto.
Qed.
Print Assumptions C10_fold.

Theorem C10_eval : forall (F : Field) NC (p : poly F) (z : F), wf 0 NC p ->
  p_eval NC p z = peval (dense NC p) z.
Proof. intros. rewrite eval_ok by auto. unfold dense. now rewrite peval_map_seq. Qed.
Print Assumptions C10_eval.

Theorem C10_revdot : forall (F : Field) NC (p q : poly F), wf 0 NC p -> wf 0 NC q ->
  p_revdot NC p q = fsum NC (fun k => coeff_at p k * coeff_at q (NC - 1 - k)).
Proof. exact revdot_ok. Qed.
Print Assumptions C10_revdot.

(** every schedule of [next] (true) and [next_back] (false) calls, including
    calls after exhaustion, sees the dense coefficient vector *)
Theorem C10_iterator : forall (F : Field) NC (p : poly F) (schedule : list bool), wf 0 NC p ->
  run_iter F p schedule (iter_coeffs NC p) = deque_run schedule (dense NC p).
Proof. intros. now apply iter_all_ok. Qed.
Print Assumptions C10_iterator.

Theorem C10_commit : forall (F : Field) NC (M : FMod F) (gens : list M) (p : poly F),
  wf 0 NC p -> (NC <= length gens)%nat ->
  p_commit NC gens p = Some (msum NC (fun k => mscale (coeff_at p k) (nth k gens m0))).
Proof. exact commit_ok. Qed.
Print Assumptions C10_commit.

(* overlapping block layouts: revdot and the sum *)
Definition ex_p : poly F97 := [(1%nat, map l97 [3;0;4]%Z); (7%nat, map l97 [5;6]%Z)].
Definition ex_q : poly F97 := [(0%nat, map l97 [1;2]%Z); (2%nat, map l97 [93]%Z); (6%nat, map l97 [1;1]%Z)].
Example C10_ex_wf : wf 0 16 ex_p /\ wf 0 16 ex_q.
Proof. simpl. repeat split; try lia; discriminate. Qed.
Example C10_ex_add : match p_add 16 ex_p ex_q with
  | Some r => map (fun b => (fst b, map v97 (snd b))) r = [(0%nat, [1;5;93;4;0;0;1;6;6]%Z)] \/
              map (fun b => (fst b, map v97 (snd b))) r = [(0%nat, [1;5;93;4]%Z); (6%nat, [1;6;6]%Z)]
  | None => False end.
Proof. vm_compute. right. reflexivity. Qed.
Example C10_ex_iter : map (option_map v97) (run_iter F97 ex_p [true;false;true;false;false;true] (iter_coeffs 9 ex_p))
  = [Some 0; Some 6; Some 3; Some 5; Some 0; Some 0]%Z.
Proof. vm_compute. reflexivity. Qed.

(** ** C11 *)
Theorem C11_duality : forall (F : Field) n (a b c d a' b' c' d' : list F) r w,
  trace_build (4 * n) n a b c d = Some r -> wiring_build (4 * n) n a' b' c' d' = Some w ->
  p_revdot (4 * n) r w =
  fsum n (fun i => nth i a 0 * nth i a' 0 + nth i b 0 * nth i b' 0 + nth i c 0 * nth i c' 0 + nth i d 0 * nth i d' 0).
Proof.
  intros F n a b c d a' b' c' d' r w Er Ew.
  destruct (proj1 (proj1 (proj2 (C09_constructors F n [] a b c d))) ltac:(congruence)) as (? & ? & ? & ?).
  destruct (proj1 (proj2 (proj2 (C09_constructors F n [] a' b' c' d'))) ltac:(congruence)) as (? & ? & ? & ?).
  destruct (trace_build_ok F n a b c d) as (r' & Er' & Wr & Cr); auto. rewrite Er' in Er. injection Er as ->.
  destruct (wiring_build_ok F n a' b' c' d') as (w' & Ew' & Ww & Cw); auto. rewrite Ew' in Ew. injection Ew as ->.
  rewrite revdot_ok by auto. rewrite <- dual_sum. apply fsum_ext. intros k Hk. now rewrite Cr, Cw.
Qed.
Print Assumptions C11_duality.

(** the documented degree maps *)
Theorem C11_layout : forall (F : Field) n (a b c d : list F) r w i, (i < n)%nat ->
  trace_build (4 * n) n a b c d = Some r -> wiring_build (4 * n) n a b c d = Some w ->
  coeff_at r (2 * n + i) = nth i a 0 /\ coeff_at r (2 * n - 1 - i) = nth i b 0 /\
  coeff_at r i = nth i c 0 /\ coeff_at r (4 * n - 1 - i) = nth i d 0 /\
  coeff_at w (2 * n - 1 - i) = nth i a 0 /\ coeff_at w (2 * n + i) = nth i b 0 /\
  coeff_at w (4 * n - 1 - i) = nth i c 0 /\ coeff_at w i = nth i d 0.
Proof.
  intros F n a b c d r w i Hi Er Ew.
  destruct (proj1 (proj1 (proj2 (C09_constructors F n [] a b c d))) ltac:(congruence)) as (? & ? & ? & ?).
  destruct (trace_build_ok F n a b c d) as (r' & Er' & Wr & Cr); auto. rewrite Er' in Er. injection Er as ->.
  destruct (wiring_build_ok F n a b c d) as (w' & Ew' & Ww & Cw); auto. rewrite Ew' in Ew. injection Ew as ->.
  rewrite !Cr, !Cw.
  repeat split; auto using trace_coeff_a, trace_coeff_b, trace_coeff_c, trace_coeff_d.
Qed.
Print Assumptions C11_layout.

Example C11_ex : match trace_build 16 4 (map l97 [1;2]%Z) (map l97 [3]%Z) (map l97 [4;0;5]%Z) (map l97 [6;7;8;9]%Z) with
  | Some r => map v97 (dense 16 r) = [4;0;5;0; 0;0;0;3; 1;2;0;0; 9;8;7;6]%Z | None => False end.
Proof. vm_compute. reflexivity. Qed.

(** ** C12 *)
(** reference: t(x,z) = - sum_i x^(4n-1-i) (z^(2n-1-i) + z^(2n+i)); the three
    evaluators agree with it at every point, zero included *)
Theorem C12_evaluators : forall (F : Field) k (x z : F),
  let n := (2 ^ k)%nat in
  let t := - fsum n (fun i => x ^ (4 * n - 1 - i) * (z ^ (2 * n - 1 - i) + z ^ (2 * n + i))) in
  (exists p, t_z n z = Some p /\ p_eval (4 * n) p x = t) /\
  (exists p, t_x n x = Some p /\ p_eval (4 * n) p z = t) /\
  t_xz k x z = Some t.
Proof.
  intros F k x z n t. split; [|split].
  - destruct (t_z_ok F n z) as (p & E & _). exists p. split; auto. apply tz_eval. auto.
  - destruct (t_x_ok F n x) as (p & E & _). exists p. split; auto. apply tx_eval. auto.
  - apply t_xz_ok.
Qed.
Print Assumptions C12_evaluators.

Theorem C12_gate_identity : forall (F : Field) n (a b c d : list F) r z tz s,
  trace_build (4 * n) n a b c d = Some r -> t_z n z = Some tz -> p_add (4 * n) (p_dilate z r) tz = Some s ->
  p_revdot (4 * n) r s =
  fsum n (fun i => (nth i a 0 * nth i b 0 - nth i c 0) * (z ^ (2 * n - 1 - i) + z ^ (2 * n + i))
                 + nth i c 0 * nth i d 0 * (z ^ i + z ^ (4 * n - 1 - i))).
Proof.
  intros F n a b c d r z tz s Er Et Es.
  destruct (proj1 (proj1 (proj2 (C09_constructors F n [] a b c d))) ltac:(congruence)) as (? & ? & ? & ?).
  eapply gate_identity; eauto.
Qed.
Print Assumptions C12_gate_identity.

(** the identity vanishes at 4n distinct points (or everywhere) exactly when
    every gate A*B = C, C*D = 0 holds *)
Theorem C12_gates_iff : forall (F : Field) n (a b c d : list F) r (zs : list F),
  trace_build (4 * n) n a b c d = Some r -> NoDup zs -> (4 * n <= length zs)%nat ->
  ((forall i, (i < n)%nat -> nth i a 0 * nth i b 0 = nth i c 0 /\ nth i c 0 * nth i d 0 = 0) <->
   (forall z tz s, In z zs -> t_z n z = Some tz -> p_add (4 * n) (p_dilate z r) tz = Some s ->
      p_revdot (4 * n) r s = 0)).
Proof.
  intros F n a b c d r zs Er Hnd Hl.
  destruct (proj1 (proj1 (proj2 (C09_constructors F n [] a b c d))) ltac:(congruence)) as (? & ? & ? & ?).
  change (forall i, (i < n)%nat -> nth i a 0 * nth i b 0 = nth i c 0 /\ nth i c 0 * nth i d 0 = 0)
    with (gates_ok F n a b c d).
  rewrite (gate_poly_zero_iff F n a b c d zs Hnd Hl). split.
  - intros Hz z tz s Hin Et Es. rewrite (gate_identity F n a b c d r z (p_dilate z r) tz s); auto.
  - intros Hz z Hin. destruct (t_z_ok F n z) as (tz & Et & Wt & _).
    destruct (trace_build_ok F n a b c d) as (r' & Er' & Wr & _); auto. rewrite Er' in Er. injection Er as ->.
    destruct (add_ok F (4 * n) (p_dilate z r) tz) as (s & Es & _); [now apply dilate_ok|auto|].
    rewrite <- (gate_identity F n a b c d r z (p_dilate z r) tz s); auto. eapply Hz; eauto.
Qed.
Print Assumptions C12_gates_iff.

(* one satisfied gate 2*3=6 and one violated 2*3=7, at z=5, n=2 *)
Definition ex_gate (c0 : F97) : option F97 :=
  match trace_build 8 2 [l97 2] [l97 3] [c0] [], t_z 2 (l97 5) with
  | Some r, Some tz => match p_add 8 (p_dilate (l97 5) r) tz with Some s => Some (p_revdot 8 r s) | None => None end
  | _, _ => None end.
Example C12_ex : option_map v97 (ex_gate (l97 6)) = Some 0%Z /\ option_map v97 (ex_gate (l97 7)) <> Some 0%Z.
Proof. split; vm_compute; [reflexivity|discriminate]. Qed.
