(** Soundness of the opening argument. *)
From Coq Require Import List Arith Bool Lia Ring Field.
From Verif Require Import FieldDef SparseModel SparseSpec SparseProofs FoldSpec FoldProofs2 PcdModel RecModel RecSpec QvModel QvProofs.
Import ListNotations.
Open Scope f_scope.
Local Open Scope nat_scope.

Section Sound.
  Variable F : Field.
  Add Field FFqs : (f_theory F).
  Open Scope f_scope.

  (** functions given by a polynomial of at most n coefficients *)
  Definition is_poly (n : nat) (g : F -> F) : Prop := exists c, (length c <= n)%nat /\ forall x, g x = peval c x.
  Lemma is_poly_le n m g : is_poly n g -> (n <= m)%nat -> is_poly m g.
  Proof. intros (c & L & E) H. exists c. split; [lia|exact E]. Qed.
  Lemma is_poly_0 n : is_poly n (fun _ => 0).
  Proof. exists []. split; [cbn; lia|reflexivity]. Qed.
  Lemma is_poly_const n a : (0 < n)%nat -> is_poly n (fun _ => a).
  Proof. intros H. exists [a]. split; [cbn; lia|]. intros x. cbn. ring. Qed.
  Lemma is_poly_add n g h : is_poly n g -> is_poly n h -> is_poly n (fun x => g x + h x).
  Proof.
    intros (c & Lc & Ec) (d & Ld & Ed).
    exists (map (fun k => nth k c 0 + nth k d 0) (seq 0 n)). split; [rewrite map_length, seq_length; lia|]. intros x. rewrite Ec, Ed, peval_map_seq.
    rewrite (peval_nth_ge F c n), (peval_nth_ge F d n) by lia. rewrite <- fsum_add. apply fsum_ext. intros i Hi. ring.
  Qed.
  Lemma is_poly_scale n a g : is_poly n g -> is_poly n (fun x => a * g x).
  Proof. intros (c & L & E). exists (map (fmul a) c). split; [now rewrite map_length|]. intros x. now rewrite E, peval_map_scale. Qed.
  Lemma is_poly_lin n a g : is_poly n g -> is_poly (S n) (fun x => (x - a) * g x).
  Proof.
    intros (c & L & E). assert (H : is_poly (S n) (fun x => x * g x + - a * g x)).
    { apply is_poly_add; [|apply is_poly_scale, (is_poly_le n); [exists c; auto|lia]].
      exists (0 :: c). split; [cbn; lia|]. intros x. cbn. rewrite E. ring. }
    destruct H as (d & Ld & Ed). exists d. split; [exact Ld|]. intros x. rewrite <- Ed. ring.
  Qed.
  Lemma is_poly_ext n g h : is_poly n g -> (forall x, g x = h x) -> is_poly n h.
  Proof. intros (c & L & E) H. exists c. split; [exact L|]. intros x. now rewrite <- H, E. Qed.
  Lemma is_poly_fsum n m (g : nat -> F -> F) : (forall i, (i < m)%nat -> is_poly n (g i)) -> is_poly n (fun x => fsum m (fun i => g i x)).
  Proof.
    induction m as [|m IH]; intros H; [apply is_poly_0|]. cbn [fsum]. apply is_poly_add; [apply IH; intros i Hi; apply H; lia|apply H; lia].
  Qed.
  Lemma is_poly_eq n g h rs : is_poly n g -> is_poly n h -> NoDup rs -> (n <= length rs)%nat -> (forall r, In r rs -> g r = h r) -> forall x, g x = h x.
  Proof.
    intros (c & Lc & Ec) (d & Ld & Ed) ND L H x. rewrite Ec, Ed.
    assert (C : forall i, nth i c 0 = nth i d 0). { apply (poly_unique F c d rs ND); try lia. intros r Hr. rewrite <- Ec, <- Ed. auto. }
    rewrite (peval_nth_ge F c n), (peval_nth_ge F d n) by lia. apply fsum_ext. intros i _. now rewrite C.
  Qed.
  (** the product of x - a over a list *)
  Definition pprod (xs : list F) (x : F) : F := fold_right (fun a acc => (x - a) * acc) 1 xs.
  Lemma pprod_poly n g xs : is_poly n g -> is_poly (n + length xs) (fun x => pprod xs x * g x).
  Proof.
    intros H. induction xs as [|a xs IH]; cbn [length pprod fold_right].
    - apply (is_poly_ext (n + 0) g); [now rewrite Nat.add_0_r|]. intros x. ring.
    - replace (n + S (length xs))%nat with (S (n + length xs)) by lia.
      apply (is_poly_ext _ (fun x => (x - a) * (pprod xs x * g x))); [now apply is_poly_lin|]. intros x. unfold pprod. ring.
  Qed.
  Lemma pprod_zero xs x : In x xs -> pprod xs x = 0.
  Proof. induction xs as [|a xs IH]; intros []; cbn; [subst; ring|]. fold (pprod xs x). rewrite IH by assumption. ring. Qed.
  Lemma pprod_nz xs x : ~ In x xs -> pprod xs x <> 0.
  Proof.
    induction xs as [|a xs IH]; intros H; cbn; [apply f1_neq_0|]. fold (pprod xs x). intros Z. apply fmul_integral in Z.
    destruct Z as [Z|Z]; [|apply IH in Z; auto; intros Hx; apply H; now right]. apply H. left. symmetry. now apply (proj1 (fsub_eq_0 F x a)).
  Qed.
  Lemma pprod_remove xs a x : NoDup xs -> In a xs -> pprod xs x = (x - a) * pprod (remove (feq_dec F) a xs) x.
  Proof.
    induction xs as [|b xs IH]; intros ND H; [destruct H|]. inversion ND; subst. cbn [remove]. destruct (feq_dec F a b) as [->|N].
    - rewrite notin_remove by assumption. reflexivity.
    - destruct H as [->|H]; [congruence|]. change ((x - b) * pprod xs x = (x - a) * ((x - b) * pprod (remove (feq_dec F) a xs) x)). rewrite IH by assumption. ring.
  Qed.
  Lemma remove_len xs a : NoDup xs -> In a xs -> S (length (remove (feq_dec F) a xs)) = length xs.
  Proof.
    induction xs as [|b xs IH]; intros ND H; [destruct H|]. inversion ND; subst. cbn [remove]. destruct (feq_dec F a b) as [->|N].
    - now rewrite notin_remove.
    - destruct H as [->|H]; [congruence|]. cbn [length]. now rewrite IH.
  Qed.

  (** for one alpha: at every point the weighted defects of the openings there cancel *)
  Variables (n k : nat) (p : nat -> F -> F) (v x : nat -> F).
  Hypothesis Hp : forall i, (i < k)%nat -> is_poly n (p i).
  Lemma defects (w : nat -> F) (f : F -> F) (us : list F) : (0 < n)%nat -> is_poly n f -> NoDup us -> (n + k <= length us)%nat ->
    (forall u, In u us -> (forall i, (i < k)%nat -> u <> x i) /\ f u = fsum k (fun i => w i * ((p i u - v i) / (u - x i)))) ->
    forall a, fsum k (fun i => if feq_dec F (x i) a then w i * (p i a - v i) else 0) = 0.
  Proof.
    intros Hn Hf ND L H a. set (xs := nodup (feq_dec F) (map x (seq 0 k))).
    assert (NX : NoDup xs) by apply NoDup_nodup.
    assert (IX : forall i, (i < k)%nat -> In (x i) xs). { intros i Hi. apply nodup_In, in_map, in_seq. lia. }
    assert (XI : forall b, In b xs -> exists i, (i < k)%nat /\ x i = b).
    { intros b Hb. apply nodup_In in Hb. apply in_map_iff in Hb. destruct Hb as (i & <- & Hi). apply in_seq in Hi. exists i. split; [lia|reflexivity]. }
    assert (LX : (length xs <= k)%nat).
    { pose proof (NoDup_incl_length (l' := map x (seq 0 k)) NX) as Q. rewrite map_length, seq_length in Q. apply Q.
      intros b Hb. apply nodup_In in Hb. exact Hb. }
    destruct (in_dec (feq_dec F) a xs) as [Ia|Na].
    2:{ apply fsum_zero. intros i Hi. destruct (feq_dec F (x i) a) as [E|E]; [|reflexivity]. exfalso. apply Na. rewrite <- E. auto. }
    assert (Q : forall u, pprod xs u * f u = fsum k (fun i => pprod (remove (feq_dec F) (x i) xs) u * (w i * (p i u - v i)))).
    { apply (is_poly_eq (n + k) (fun u => pprod xs u * f u) (fun u => fsum k (fun i => pprod (remove (feq_dec F) (x i) xs) u * (w i * (p i u - v i)))) us); auto.
      - apply (is_poly_le (n + length xs)); [now apply pprod_poly|lia].
      - apply is_poly_fsum. intros i Hi. pose proof (remove_len xs (x i) NX (IX i Hi)).
        apply (is_poly_le (n + length (remove (feq_dec F) (x i) xs))); [|lia].
        apply (pprod_poly n (fun u => w i * (p i u - v i))). apply is_poly_scale.
        apply (is_poly_ext n (fun u => p i u + - v i)); [|intros; ring]. apply is_poly_add; [auto|now apply is_poly_const].
      - intros u Hu. destruct (H u Hu) as (U & ->). rewrite <- fsum_scale. apply fsum_ext. intros i Hi. rewrite (pprod_remove xs (x i) u NX (IX i Hi)).
        assert (u - x i <> 0) by (intros Z; apply (U i Hi), (proj1 (fsub_eq_0 F _ _) Z)). field. assumption. }
    specialize (Q a). rewrite (pprod_zero xs a Ia) in Q. set (D := pprod (remove (feq_dec F) a xs) a).
    assert (HD : D <> 0) by (apply pprod_nz, remove_In).
    apply (fmul_cancel_l F D _ _ HD). rewrite <- fsum_scale. transitivity (0 * f a); [|ring]. rewrite Q. apply fsum_ext. intros i Hi.
    destruct (feq_dec F (x i) a) as [E|E]; [rewrite E; reflexivity|]. rewrite (pprod_zero (remove (feq_dec F) (x i) xs)); [ring|].
    apply in_in_remove; [congruence|exact Ia].
  Qed.
  (** with as many alphas as openings every opening is right *)
  Lemma openings (als : list F) : (0 < n)%nat -> NoDup als -> (k <= length als)%nat ->
    (forall al, In al als -> exists f us, is_poly n f /\ NoDup us /\ (n + k <= length us)%nat /\
       forall u, In u us -> (forall i, (i < k)%nat -> u <> x i) /\ f u = fsum k (fun i => al ^ (k - 1 - i) * ((p i u - v i) / (u - x i)))) ->
    forall i, (i < k)%nat -> p i (x i) = v i.
  Proof.
    intros Hn ND L H i Hi.
    assert (Z := coeffs_zero F k (fun j => if feq_dec F (x (k - 1 - j)%nat) (x i) then p (k - 1 - j)%nat (x i) - v (k - 1 - j)%nat else 0) als ND L).
    assert (forall j, (j < k)%nat -> (if feq_dec F (x (k - 1 - j)%nat) (x i) then p (k - 1 - j)%nat (x i) - v (k - 1 - j)%nat else 0) = 0) as Z'.
    { apply Z. intros al Ha. destruct (H al Ha) as (f & us & Hf & NU & LU & HU).
      pose proof (defects (fun i => al ^ (k - 1 - i)) f us Hn Hf NU LU HU (x i)) as Q. etransitivity; [|exact Q]. symmetry. rewrite <- (fsum_rev F k). apply fsum_ext. intros j Hj.
      replace (k - 1 - (k - 1 - j))%nat with j by lia. destruct (feq_dec F (x (k - 1 - j)%nat) (x i)); ring. }
    specialize (Z' (k - 1 - i)%nat ltac:(lia)). replace (k - 1 - (k - 1 - i))%nat with i in Z' by lia. destruct (feq_dec F (x i) (x i)); [|congruence].
    now apply (proj1 (fsub_eq_0 F _ _)).
  Qed.
End Sound.

(** the accumulation separates its components *)
Lemma comps_eq (F : Field) (a b bs : list F) : length a = length b -> NoDup bs -> length a <= length bs ->
  (forall be, In be bs -> hfold (length a) be (fun i => nth i a f0) = hfold (length b) be (fun i => nth i b f0)) -> a = b.
Proof.
  intros L ND LB H. apply (nth_ext a b f0 f0 L). intros i Hi.
  assert (Q : forall j, nth j (rev a) f0 = nth j (rev b) f0).
  { apply (poly_unique F (rev a) (rev b) bs ND); rewrite ?rev_length; try lia. intros r Hr. rewrite !peval_rev_hfold. auto. }
  specialize (Q (length a - 1 - i)). rewrite !rev_nth in Q by lia. rewrite <- L in Q. replace (length a - S (length a - 1 - i)) with i in Q by lia. exact Q.
Qed.
