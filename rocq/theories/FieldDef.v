(** Base algebra: fields with decidable equality, powers, finite sums.

    The Rust code is generic over [ff::Field] / [ff::PrimeField]; here every
    statement quantifies over an arbitrary [Field] record.  [finv] is only ever
    used by the models behind the guard that its argument is nonzero, as
    [ff::Field::invert] returns a [CtOption]. *)
From Coq Require Import List Arith Lia Bool Ring Field Field_theory Setoid.
Import ListNotations.

Record Field := mkField {
  fcar :> Type;
  f0 : fcar;
  f1 : fcar;
  fadd : fcar -> fcar -> fcar;
  fmul : fcar -> fcar -> fcar;
  fsub : fcar -> fcar -> fcar;
  fopp : fcar -> fcar;
  fdiv : fcar -> fcar -> fcar;
  finv : fcar -> fcar;
  feqb : fcar -> fcar -> bool;
  f_theory : field_theory f0 f1 fadd fmul fsub fopp fdiv finv (@eq fcar);
  feqb_spec : forall x y, reflect (x = y) (feqb x y)
}.

Arguments f0 {_}. Arguments f1 {_}. Arguments fadd {_} _ _. Arguments fmul {_} _ _.
Arguments fsub {_} _ _. Arguments fopp {_} _. Arguments fdiv {_} _ _.
Arguments finv {_} _. Arguments feqb {_} _ _. Arguments feqb_spec {_} _ _.

Declare Scope f_scope.
Delimit Scope f_scope with F.
Bind Scope f_scope with fcar.
Notation "0" := f0 : f_scope.
Notation "1" := f1 : f_scope.
Notation "x + y" := (fadd x y) : f_scope.
Notation "x * y" := (fmul x y) : f_scope.
Notation "x - y" := (fsub x y) : f_scope.
Notation "- x" := (fopp x) : f_scope.
Notation "x / y" := (fdiv x y) : f_scope.

(** [fpow x n] is x^n (ff's [pow] / [pow_vartime]). *)
Fixpoint fpow {F : Field} (x : F) (n : nat) : F :=
  match n with O => f1 | S n' => fmul x (fpow x n') end.
Notation "x ^ n" := (fpow x n) : f_scope.

(** [fsum n f] is f 0 + ... + f (n-1). *)
Fixpoint fsum {F : Field} (n : nat) (f : nat -> F) : F :=
  match n with O => f0 | S n' => fadd (fsum n' f) (f n') end.

(** sum of a list *)
Definition lsum {F : Field} (l : list F) : F := fold_right fadd f0 l.

(** product over a list *)
Definition lprod {F : Field} (l : list F) : F := fold_right fmul f1 l.

(** field image of a natural number *)
Fixpoint fnat {F : Field} (n : nat) : F :=
  match n with O => f0 | S n' => fadd (fnat n') f1 end.

Definition two {F : Field} : F := fadd f1 f1.

(** [ff::Field::invert]: nothing on zero. *)
Definition finvert {F : Field} (x : F) : option F :=
  if feqb x f0 then None else Some (finv x).

Section Basics.
  Variable F : Field.
  Add Field FF : (f_theory F).
  Open Scope f_scope.
  Implicit Types x y z : F.

  Lemma f1_neq_0 : (1 : F) <> 0.
  Proof. exact (F_1_neq_0 (f_theory F)). Qed.

  Lemma feqb_refl x : feqb x x = true.
  Proof. destruct (feqb_spec x x); congruence. Qed.

  Lemma feqb_true x y : feqb x y = true <-> x = y.
  Proof. destruct (feqb_spec x y); split; congruence. Qed.

  Lemma feqb_false x y : feqb x y = false <-> x <> y.
  Proof. destruct (feqb_spec x y); split; congruence. Qed.

  Lemma feq_dec x y : {x = y} + {x <> y}.
  Proof. destruct (feqb_spec x y); auto. Qed.

  Lemma finv_l x : x <> 0 -> finv x * x = 1.
  Proof. intros H. field. exact H. Qed.

  Lemma finv_r x : x <> 0 -> x * finv x = 1.
  Proof. intros H. field. exact H. Qed.

  Lemma fmul_integral x y : x * y = 0 -> x = 0 \/ y = 0.
  Proof.
    intros H. destruct (feq_dec x 0) as [E|N]; [left; exact E|right].
    transitivity (finv x * (x * y)); [field; exact N|rewrite H; ring].
  Qed.

  Lemma fmul_nonzero x y : x <> 0 -> y <> 0 -> x * y <> 0.
  Proof. intros Hx Hy H. destruct (fmul_integral _ _ H); auto. Qed.

  Lemma finv_nonzero x : x <> 0 -> finv x <> 0.
  Proof.
    intros Hx H. apply f1_neq_0. rewrite <- (finv_l x Hx), H. ring.
  Qed.

  Lemma fmul_cancel_l x y z : x <> 0 -> x * y = x * z -> y = z.
  Proof.
    intros Hx H. transitivity (finv x * (x * y)); [field; exact Hx|].
    rewrite H. field. exact Hx.
  Qed.

  Lemma fsub_eq_0 x y : x - y = 0 <-> x = y.
  Proof.
    split; intros H; [|subst; ring].
    transitivity ((x - y) + y); [ring|rewrite H; ring].
  Qed.

  Lemma fdiv_def x y : x / y = x * finv y.
  Proof. exact (F.(f_theory).(Fdiv_def) x y). Qed.

  (** powers *)
  Lemma fpow_0 x : x ^ 0 = 1. Proof. reflexivity. Qed.
  Lemma fpow_1 x : x ^ 1 = x. Proof. simpl. ring. Qed.
  Lemma fpow_S x n : x ^ (S n) = x * x ^ n. Proof. reflexivity. Qed.

  Lemma fpow_add x n m : x ^ (n + m) = x ^ n * x ^ m.
  Proof. induction n as [|n IH]; simpl; [ring|rewrite IH; ring]. Qed.

  Lemma fpow_mul x n m : x ^ (n * m) = (x ^ n) ^ m.
  Proof.
    induction m as [|m IH]; [rewrite Nat.mul_0_r; reflexivity|].
    rewrite Nat.mul_succ_r, Nat.add_comm, fpow_add, IH. reflexivity.
  Qed.

  Lemma fpow_mul_base x y n : (x * y) ^ n = x ^ n * y ^ n.
  Proof. induction n as [|n IH]; simpl; [ring|rewrite IH; ring]. Qed.

  Lemma fpow_one n : (1 : F) ^ n = 1.
  Proof. induction n as [|n IH]; simpl; [reflexivity|rewrite IH; ring]. Qed.

  Lemma fpow_zero n : n <> O -> (0 : F) ^ n = 0.
  Proof. destruct n; [congruence|]. intros _. simpl. ring. Qed.

  Lemma fpow_nonzero x n : x <> 0 -> x ^ n <> 0.
  Proof.
    intros Hx. induction n as [|n IH]; simpl; [apply f1_neq_0|].
    apply fmul_nonzero; assumption.
  Qed.

  Lemma fpow_eq0 x n : x ^ n = 0 -> x = 0.
  Proof.
    intros H. destruct (feq_dec x 0) as [E|N]; [exact E|].
    exfalso. exact (fpow_nonzero x n N H).
  Qed.

  Lemma fpow_inv x n : x <> 0 -> (finv x) ^ n = finv (x ^ n).
  Proof.
    intros Hx. induction n as [|n IH]; simpl.
    - field. apply f1_neq_0.
    - rewrite IH. field. split; [|exact Hx]. apply fpow_nonzero; exact Hx.
  Qed.

  Lemma fpow_inv_mul x n : x <> 0 -> (finv x) ^ n * x ^ n = 1.
  Proof.
    intros Hx. rewrite <- fpow_mul_base, finv_l by exact Hx. apply fpow_one.
  Qed.

  Lemma fpow_sub x n m : x <> 0 -> (m <= n)%nat -> x ^ n * (finv x) ^ m = x ^ (n - m).
  Proof.
    intros Hx H. replace n with ((n - m) + m)%nat at 1 by lia.
    rewrite fpow_add.
    transitivity (x ^ (n - m) * ((finv x) ^ m * x ^ m)); [ring|].
    rewrite fpow_inv_mul by exact Hx. ring.
  Qed.

  Lemma fpow_sq x n : (x ^ n) * (x ^ n) = x ^ (2 * n).
  Proof. replace (2 * n)%nat with (n + n)%nat by lia. rewrite fpow_add. reflexivity. Qed.

  (** sums *)
  Lemma fsum_ext n (f g : nat -> F) :
    (forall i, (i < n)%nat -> f i = g i) -> fsum n f = fsum n g.
  Proof.
    induction n as [|n IH]; intros H; simpl; [reflexivity|].
    rewrite IH, (H n) by (intros; try apply H; lia). reflexivity.
  Qed.

  Lemma fsum_zero n (f : nat -> F) :
    (forall i, (i < n)%nat -> f i = 0) -> fsum n f = 0.
  Proof.
    induction n as [|n IH]; intros H; simpl; [reflexivity|].
    rewrite IH, (H n) by (intros; try apply H; lia). ring.
  Qed.

  Lemma fsum_add n (f g : nat -> F) :
    fsum n (fun i => f i + g i) = fsum n f + fsum n g.
  Proof. induction n as [|n IH]; simpl; [ring|rewrite IH; ring]. Qed.

  Lemma fsum_sub n (f g : nat -> F) :
    fsum n (fun i => f i - g i) = fsum n f - fsum n g.
  Proof. induction n as [|n IH]; simpl; [ring|rewrite IH; ring]. Qed.

  Lemma fsum_opp n (f : nat -> F) :
    fsum n (fun i => - f i) = - fsum n f.
  Proof. induction n as [|n IH]; simpl; [ring|rewrite IH; ring]. Qed.

  Lemma fsum_scale n c (f : nat -> F) :
    fsum n (fun i => c * f i) = c * fsum n f.
  Proof. induction n as [|n IH]; simpl; [ring|rewrite IH; ring]. Qed.

  Lemma fsum_scale_r n c (f : nat -> F) :
    fsum n (fun i => f i * c) = fsum n f * c.
  Proof. induction n as [|n IH]; simpl; [ring|rewrite IH; ring]. Qed.

  Lemma fsum_split n m (f : nat -> F) :
    fsum (n + m) f = fsum n f + fsum m (fun i => f (n + i)%nat).
  Proof.
    induction m as [|m IH]; simpl.
    - rewrite Nat.add_0_r. ring.
    - rewrite Nat.add_succ_r. simpl. rewrite IH. ring.
  Qed.

  Lemma fsum_S_first n (f : nat -> F) :
    fsum (S n) f = f O + fsum n (fun i => f (S i)).
  Proof.
    change (S n) with (1 + n)%nat. rewrite fsum_split. simpl. ring.
  Qed.

  Lemma fsum_rev n (f : nat -> F) :
    fsum n (fun i => f (n - 1 - i)%nat) = fsum n f.
  Proof.
    induction n as [|n IH]; [reflexivity|].
    rewrite fsum_S_first. cbn [fsum].
    replace (S n - 1 - 0)%nat with n by lia.
    rewrite <- IH.
    rewrite (fsum_ext n (fun i => f (S n - 1 - S i)%nat) (fun i => f (n - 1 - i)%nat)).
    - ring.
    - intros i Hi. f_equal. lia.
  Qed.

  Lemma fsum_swap n m (f : nat -> nat -> F) :
    fsum n (fun i => fsum m (fun j => f i j)) = fsum m (fun j => fsum n (fun i => f i j)).
  Proof.
    induction n as [|n IH]; simpl.
    - symmetry. apply fsum_zero. reflexivity.
    - rewrite IH, <- fsum_add. reflexivity.
  Qed.

  Lemma fsum_const n (c : F) : fsum n (fun _ => c) = fnat n * c.
  Proof. induction n as [|n IH]; simpl; [ring|rewrite IH; ring]. Qed.

  Lemma fsum_single n k (f : nat -> F) :
    (k < n)%nat -> (forall i, (i < n)%nat -> i <> k -> f i = 0) -> fsum n f = f k.
  Proof.
    intros Hk H. replace n with (k + S (n - k - 1))%nat in * by lia.
    rewrite fsum_split, fsum_S_first, Nat.add_0_r.
    rewrite (fsum_zero k) by (intros i Hi; apply H; lia).
    rewrite (fsum_zero (n - k - 1)) by (intros i Hi; apply H; lia).
    ring.
  Qed.

  Lemma fsum_delta n k (f : nat -> F) :
    fsum n (fun i => if Nat.eqb i k then f i else 0) = if Nat.ltb k n then f k else 0.
  Proof.
    destruct (Nat.ltb_spec k n) as [H|H].
    - rewrite (fsum_single n k); [rewrite Nat.eqb_refl; reflexivity|exact H|].
      intros i _ Hi. apply Nat.eqb_neq in Hi. rewrite Hi. reflexivity.
    - apply fsum_zero. intros i Hi. destruct (Nat.eqb_spec i k); [lia|reflexivity].
  Qed.

  Lemma fsum_extend n m (f : nat -> F) :
    (n <= m)%nat -> (forall i, (n <= i < m)%nat -> f i = 0) -> fsum m f = fsum n f.
  Proof.
    intros Hnm H. replace m with (n + (m - n))%nat by lia.
    rewrite fsum_split, (fsum_zero (m - n)); [ring|].
    intros i Hi. apply H. lia.
  Qed.

  (** even/odd split *)
  Lemma fsum_even_odd n (f : nat -> F) :
    fsum (2 * n) f = fsum n (fun i => f (2 * i)%nat) + fsum n (fun i => f (2 * i + 1)%nat).
  Proof.
    induction n as [|n IH]; [simpl; ring|].
    replace (2 * S n)%nat with (S (S (2 * n))) by lia. cbn [fsum]. rewrite IH.
    replace (S (2 * n)) with (2 * n + 1)%nat by lia. ring.
  Qed.

  Lemma fsum_rows n m (f : nat -> F) :
    fsum (n * m) f = fsum n (fun i => fsum m (fun j => f (i * m + j)%nat)).
  Proof.
    induction n as [|n IH]; [reflexivity|].
    cbn [fsum]. rewrite <- IH. replace (S n * m)%nat with (n * m + m)%nat by lia.
    apply fsum_split.
  Qed.

  (** lists *)
  Lemma lsum_app (l1 l2 : list F) : lsum (l1 ++ l2) = lsum l1 + lsum l2.
  Proof. unfold lsum. induction l1 as [|a l IH]; simpl; [ring|rewrite IH; ring]. Qed.

  Lemma lsum_fsum (l : list F) : lsum l = fsum (length l) (fun i => nth i l 0).
  Proof.
    induction l as [|a l IH]; [reflexivity|].
    cbn [length]. rewrite fsum_S_first. cbn [lsum fold_right nth].
    unfold lsum in IH. rewrite IH. reflexivity.
  Qed.

  Lemma fsum_seq n (f : nat -> F) : fsum n f = lsum (map f (seq 0 n)).
  Proof.
    rewrite lsum_fsum, map_length, seq_length. apply fsum_ext.
    intros i Hi. rewrite (nth_indep _ _ (f 0%nat)) by (rewrite map_length, seq_length; exact Hi).
    rewrite map_nth, seq_nth by exact Hi. reflexivity.
  Qed.

  Lemma lprod_app (l1 l2 : list F) : lprod (l1 ++ l2) = lprod l1 * lprod l2.
  Proof. unfold lprod. induction l1 as [|a l IH]; simpl; [ring|rewrite IH; ring]. Qed.

  Lemma fnat_add n m : (fnat (n + m) : F) = fnat n + fnat m.
  Proof. induction n as [|n IH]; simpl; [ring|rewrite IH; ring]. Qed.

  Lemma fnat_mul n m : (fnat (n * m) : F) = fnat n * fnat m.
  Proof. induction n as [|n IH]; simpl; [ring|rewrite fnat_add, IH; ring]. Qed.

  Lemma fnat_two : (fnat 2 : F) = two.
  Proof. unfold two. cbn [fnat]. ring. Qed.

  Lemma fnat_pow2 k : (fnat (2 ^ k) : F) = two ^ k.
  Proof.
    induction k as [|k IH]; [simpl; ring|].
    rewrite Nat.pow_succ_r', fnat_mul, IH, fnat_two. reflexivity.
  Qed.
End Basics.

(** Polynomials as coefficient lists, constant term first. *)
Fixpoint peval {F : Field} (p : list F) (x : F) : F :=
  match p with [] => f0 | c :: p' => fadd c (fmul x (peval p' x)) end.

Section Polys.
  Variable F : Field.
  Add Field FF2 : (f_theory F).
  Open Scope f_scope.

  Lemma peval_fsum (p : list F) x :
    peval p x = fsum (length p) (fun i => nth i p 0 * x ^ i).
  Proof.
    induction p as [|c p IH]; [reflexivity|].
    cbn [length]. rewrite fsum_S_first. cbn [peval nth]. rewrite IH.
    rewrite <- fsum_scale. cbn [fpow]. f_equal; [ring|].
    apply fsum_ext. intros i _. ring.
  Qed.

  Lemma peval_app (p q : list F) x :
    peval (p ++ q) x = peval p x + x ^ (length p) * peval q x.
  Proof.
    induction p as [|c p IH]; [simpl; ring|]. simpl. rewrite IH. ring.
  Qed.

  Lemma peval_map_scale c (p : list F) x : peval (map (fmul c) p) x = c * peval p x.
  Proof. induction p as [|a p IH]; simpl; [ring|rewrite IH; ring]. Qed.

  Lemma peval_zeros n x : peval (repeat (0:F) n) x = 0.
  Proof. induction n as [|n IH]; simpl; [reflexivity|rewrite IH; ring]. Qed.

  (** Quotient by X - b (specification-level; the code's version is modelled
      separately). *)
  Fixpoint pdiv (p : list F) (b : F) : list F :=
    match p with
    | [] => []
    | _ :: p' => match p' with [] => [] | _ => peval p' b :: pdiv p' b end
    end.

  Lemma pdiv_length p b : length (pdiv p b) = (length p - 1)%nat.
  Proof.
    induction p as [|c p IH]; [reflexivity|].
    destruct p as [|d p]; [reflexivity|]. cbn [pdiv length] in *. rewrite IH. lia.
  Qed.

  Lemma pdiv_spec p b x : peval p x = peval (pdiv p b) x * (x - b) + peval p b.
  Proof.
    induction p as [|c p IH]; [simpl; ring|].
    destruct p as [|d p]; [simpl; ring|].
    change (pdiv (c :: d :: p) b) with (peval (d :: p) b :: pdiv (d :: p) b).
    change (peval (c :: d :: p) x) with (c + x * peval (d :: p) x).
    change (peval (c :: d :: p) b) with (c + b * peval (d :: p) b).
    cbn [peval] in IH |- *. rewrite IH. ring.
  Qed.

  (** A list of coefficients all of whose values vanish at more points than its
      length is identically zero. *)
  Theorem roots_bound (p : list F) (rs : list F) :
    NoDup rs -> (length p <= length rs)%nat ->
    (forall r, In r rs -> peval p r = 0) ->
    Forall (fun c => c = 0) p.
  Proof.
    revert p. induction rs as [|b rs IH]; intros p Hnd Hlen Hr.
    - destruct p; [constructor|simpl in Hlen; lia].
    - inversion Hnd as [|? ? Hb Hnd']; subst.
      assert (Hq : Forall (fun c => c = 0) (pdiv p b)).
      { apply IH; [exact Hnd'| rewrite pdiv_length; simpl in Hlen; lia|].
        intros r Hin. pose proof (Hr r (or_intror Hin)) as E.
        rewrite (pdiv_spec p b r), (Hr b (or_introl eq_refl)) in E.
        assert (E' : peval (pdiv p b) r * (r - b) = 0) by (rewrite <- E; ring).
        destruct (fmul_integral F _ _ E') as [Z|Z]; [exact Z|].
        exfalso. apply Hb. rewrite (fsub_eq_0 F) in Z. rewrite <- Z. exact Hin. }
      pose proof (Hr b (or_introl eq_refl)) as Eb. clear Hr IH Hlen Hnd Hnd' Hb.
      revert Hq Eb. induction p as [|c p IHp]; intros Hq Eb; [constructor|].
      destruct p as [|d p].
      + simpl in Eb. constructor; [|constructor]. rewrite <- Eb. ring.
      + change (pdiv (c :: d :: p) b) with (peval (d :: p) b :: pdiv (d :: p) b) in Hq.
        inversion Hq as [|? ? H1 H2]; subst.
        assert (E1 : peval (d :: p) b = 0) by exact H1.
        change (c + b * peval (d :: p) b = 0) in Eb.
        constructor; [|apply IHp; assumption].
        rewrite E1 in Eb. rewrite <- Eb. ring.
  Qed.

  Lemma peval_allzero (p : list F) x : Forall (fun c => c = 0) p -> peval p x = 0.
  Proof. induction 1 as [|c p Hc _ IH]; simpl; [reflexivity|rewrite Hc, IH; ring]. Qed.

  Definition padd (p q : list F) : list F :=
    map (fun i => nth i p 0 + nth i q 0) (seq 0 (Nat.max (length p) (length q))).
  Definition psub (p q : list F) : list F :=
    map (fun i => nth i p 0 - nth i q 0) (seq 0 (Nat.max (length p) (length q))).

  Lemma peval_nth_ge (p : list F) n x : (length p <= n)%nat ->
    peval p x = fsum n (fun i => nth i p 0 * x ^ i).
  Proof.
    intros H. rewrite peval_fsum. symmetry. apply fsum_extend; [exact H|].
    intros i Hi. rewrite nth_overflow by lia. ring.
  Qed.

  Lemma peval_map_seq (f : nat -> F) n x :
    peval (map f (seq 0 n)) x = fsum n (fun i => f i * x ^ i).
  Proof.
    rewrite peval_fsum, map_length, seq_length. apply fsum_ext. intros i Hi.
    rewrite (nth_indep _ _ (f 0%nat)) by (rewrite map_length, seq_length; exact Hi).
    rewrite map_nth, seq_nth by exact Hi. reflexivity.
  Qed.

  Lemma peval_psub p q x : peval (psub p q) x = peval p x - peval q x.
  Proof.
    unfold psub. rewrite peval_map_seq.
    rewrite (peval_nth_ge p (Nat.max (length p) (length q))) by lia.
    rewrite (peval_nth_ge q (Nat.max (length p) (length q))) by lia.
    rewrite <- fsum_sub. apply fsum_ext. intros; ring.
  Qed.

  (** Two coefficient lists agreeing at enough points agree coefficientwise. *)
  Theorem poly_unique (p q rs : list F) :
    NoDup rs -> (length p <= length rs)%nat -> (length q <= length rs)%nat ->
    (forall r, In r rs -> peval p r = peval q r) ->
    forall i, nth i p 0 = nth i q 0.
  Proof.
    intros Hnd Hp Hq H i.
    assert (Hz : Forall (fun c => c = 0) (psub p q)).
    { apply (roots_bound _ rs Hnd).
      - unfold psub. rewrite map_length, seq_length. lia.
      - intros r Hr. rewrite peval_psub, (H r Hr). ring. }
    destruct (Nat.lt_ge_cases i (Nat.max (length p) (length q))) as [Hi|Hi].
    - rewrite Forall_forall in Hz. apply (fsub_eq_0 F). apply Hz.
      unfold psub. apply in_map_iff. exists i. split; [reflexivity|].
      apply in_seq. lia.
    - rewrite !nth_overflow by lia. reflexivity.
  Qed.

  (** Function-coefficient version. *)
  Theorem coeffs_zero n (f : nat -> F) (rs : list F) :
    NoDup rs -> (n <= length rs)%nat ->
    (forall r, In r rs -> fsum n (fun i => f i * r ^ i) = 0) ->
    forall i, (i < n)%nat -> f i = 0.
  Proof.
    intros Hnd Hn H i Hi.
    assert (Hz : Forall (fun c => c = 0) (map f (seq 0 n))).
    { apply (roots_bound _ rs Hnd); [rewrite map_length, seq_length; exact Hn|].
      intros r Hr. rewrite peval_map_seq. apply H. exact Hr. }
    rewrite Forall_forall in Hz. apply Hz. apply in_map. apply in_seq. lia.
  Qed.
End Polys.
