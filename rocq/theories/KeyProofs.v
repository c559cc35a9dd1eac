(** Computing the keys of all roots of unity of a large domain: multiplication by a fixed
    element through a table of its multiples, and a test by halves that the low bits of
    a list of numbers are pairwise different. *)
From Coq Require Import List Arith NArith ZArith Bool Lia Ring Field.
From Verif Require Import FieldDef GF PrimeCert RegModel PastaProofs PastaProofs2.
Import ListNotations.
Local Open Scope nat_scope.

(** ** low bits pairwise different *)
Fixpoint halves (b : bool) (l : list N) : list N :=
  match l with
  | [] => []
  | x :: r => if Bool.eqb (N.odd x) b then N.div2 x :: halves b r else halves b r
  end.
Fixpoint lowdist (n : nat) (l : list N) : bool :=
  match l with
  | [] | [_] => true
  | _ => match n with O => false | S n' => lowdist n' (halves false l) && lowdist n' (halves true l) end
  end.
Definition low (n : nat) (x : N) : N := (x mod 2 ^ N.of_nat n)%N.
Lemma low_S n x : low (S n) x = ((if N.odd x then 1 else 0) + 2 * low n (N.div2 x))%N.
Proof.
  unfold low. rewrite Nat2N.inj_succ, N.pow_succ_r by lia.
  assert (P : (2 ^ N.of_nat n <> 0)%N) by (apply N.pow_nonzero; lia). set (m := (2 ^ N.of_nat n)%N) in *. clearbody m.
  rewrite N.div2_div, N.mod_mul_r by lia. rewrite <- N.bit0_mod, N.bit0_odd. reflexivity.
Qed.
Lemma low_S_inj n x y : low (S n) x = low (S n) y -> N.odd x = N.odd y /\ low n (N.div2 x) = low n (N.div2 y).
Proof. rewrite !low_S. destruct (N.odd x), (N.odd y); split; auto; lia. Qed.
Lemma halves_in b x l : In x l -> N.odd x = b -> In (N.div2 x) (halves b l).
Proof.
  intros I E. induction l as [|y l IH]; [contradiction|]. cbn [halves]. destruct I as [->|I].
  - rewrite E, Bool.eqb_reflx. now left.
  - destruct (Bool.eqb (N.odd y) b); [right|]; auto.
Qed.
Lemma halves_nodup n l : (forall b, NoDup (map (low n) (halves b l))) -> NoDup (map (low (S n)) l).
Proof.
  induction l as [|x l IH]; intros H; cbn [map]; constructor.
  - intros I. apply in_map_iff in I. destruct I as (y & E & I). apply low_S_inj in E. destruct E as [Eo El].
    specialize (H (N.odd x)). cbn [halves] in H. rewrite Bool.eqb_reflx in H. cbn [map] in H. inversion H as [|? ? Ni _]; subst.
    apply Ni. rewrite <- El. apply in_map. now apply halves_in.
  - apply IH. intros b. specialize (H b). cbn [halves] in H. destruct (Bool.eqb (N.odd x) b); [|exact H]. now inversion H.
Qed.
Lemma lowdist_ok n : forall l, lowdist n l = true -> NoDup (map (low n) l).
Proof.
  induction n as [|n IH]; intros [|x [|y l]] H; try (cbn [map]; repeat constructor; intros []); [discriminate|].
  change (lowdist n (halves false (x :: y :: l)) && lowdist n (halves true (x :: y :: l)) = true) in H.
  apply andb_true_iff in H. destruct H as [Hf Ht]. apply halves_nodup. intros [|]; now apply IH.
Qed.

(** ** multiplying by a fixed element *)
Inductive dtree := DL (v w : N) | DN (l r : dtree).
Section Table.
  Variables (p : Z) (Hg : good p).
  Local Notation F := (GF p Hg).
  Definition nadd (pn x y : N) : N := let s := (x + y)%N in if (s <? pn)%N then s else (s - pn)%N.
  Definition nsub (k x : N) : N := if (x <? k)%N then x else (x - k)%N.
  (** the values v + d m for the d of n bits, at the leaves; m is doubled at every level *)
  Fixpoint mktree (pn : N) (n : nat) (v m : N) : dtree :=
    match n with
    | O => DL v m
    | S n' => let m2 := nadd pn m m in DN (mktree pn n' v m2) (mktree pn n' (nadd pn v m) m2)
    end.
  Fixpoint dbl (pn : N) (n : nat) (m : N) : N := match n with O => m | S n' => dbl pn n' (nadd pn m m) end.
  Fixpoint mkrows (pn : N) (d n : nat) (m : N) : list dtree :=
    match n with O => [] | S n' => mktree pn d 0 m :: mkrows pn d n' (dbl pn d m) end.
  Fixpoint leftmost (t : dtree) : N := match t with DL v _ => v | DN l _ => leftmost l end.
  Fixpoint wsum (x : positive) (t : dtree) (rs : list dtree) {struct x} : N :=
    match t with
    | DL v w => (v + Npos x * w)%N
    | DN l r =>
      match x with
      | xH => leftmost r
      | xO y => match l with
        | DL v w => match rs with [] => (v + Npos y * w)%N | t' :: rs' => (v + wsum y t' rs')%N end
        | DN _ _ => wsum y l rs
        end
      | xI y => match r with
        | DL v w => match rs with [] => (v + Npos y * w)%N | t' :: rs' => (v + wsum y t' rs')%N end
        | DN _ _ => wsum y r rs
        end
      end
    end.
  Definition wred (pn x : N) : N :=
    nsub pn (nsub (2 * pn) (nsub (4 * pn) (nsub (8 * pn) (nsub (16 * pn) (nsub (32 * pn) x)))))%N.
  Definition wmul (pn : N) (rs : list dtree) (x : N) : N :=
    match x, rs with
    | Npos x', t :: rs' => wred pn (wsum x' t rs')
    | _, _ => 0%N
    end.
  Fixpoint orbit (pn : N) (rs : list dtree) (n : nat) (y : N) : list N :=
    match n with O => [] | S n' => y :: orbit pn rs n' (wmul pn rs y) end.

  Section Sem.
  Variable pn : N.
  Hypothesis Hpn : Z.of_N pn = p.
  Definition injN (x : N) : F := mk p Hg (Z.of_N x).
  Add Field FFu28 : (f_theory F).
  Open Scope f_scope.
  Lemma injN_add x y : injN (x + y)%N = injN x + injN y.
  Proof. unfold injN. rewrite N2Z.inj_add. apply inj_add. Qed.
  Lemma injN_mul x y : injN (x * y)%N = injN x * injN y.
  Proof. unfold injN. rewrite N2Z.inj_mul. apply inj_mul. Qed.
  Lemma injN_p : injN pn = 0.
  Proof. unfold injN. rewrite Hpn, <- (inj_mod p Hg p). rewrite Z.mod_same by (destruct Hg; lia). reflexivity. Qed.
  Lemma injN_sub k x : injN k = 0 -> injN (nsub k x) = injN x.
  Proof.
    intros E. unfold nsub. destruct (N.ltb_spec x k) as [L|L]; [reflexivity|].
    transitivity (injN (x - k)%N + injN k); [rewrite E; ring|]. rewrite <- injN_add. f_equal. f_equal. lia.
  Qed.
  Lemma injN_nadd x y : injN (nadd pn x y) = injN x + injN y.
  Proof. rewrite <- injN_add. change (nadd pn x y) with (nsub pn (x + y)%N). apply injN_sub, injN_p. Qed.
  Lemma injN_kp k : injN (k * pn)%N = 0.
  Proof. rewrite injN_mul, injN_p. ring. Qed.
  Lemma injN_red x : injN (wred pn x) = injN x.
  Proof. unfold wred. rewrite injN_sub by exact injN_p. do 5 rewrite injN_sub by apply injN_kp. reflexivity. Qed.
  Lemma injN_xO y : injN (Npos (xO y)) = (1 + 1) * injN (Npos y).
  Proof. change (Npos (xO y)) with (2 * Npos y)%N. rewrite injN_mul. f_equal. change 2%N with (1 + 1)%N. apply injN_add. Qed.
  Lemma injN_xI y : injN (Npos (xI y)) = (1 + 1) * injN (Npos y) + 1.
  Proof. change (Npos (xI y)) with (Npos (xO y) + 1)%N. rewrite injN_add, injN_xO. reflexivity. Qed.

  Fixpoint tok (n : nat) (t : dtree) (v m : F) : Prop :=
    match n, t with
    | O, DL u w => injN u = v /\ injN w = m
    | S n', DN l r => tok n' l v ((1 + 1) * m) /\ tok n' r (v + m) ((1 + 1) * m)
    | _, _ => False
    end.
  Fixpoint mdbl (n : nat) (m : F) : F := match n with O => m | S n' => mdbl n' ((1 + 1) * m) end.
  Fixpoint rok (d : nat) (rs : list dtree) (m : F) : Prop :=
    match rs with [] => True | t :: rs' => tok d t 0 m /\ rok d rs' (mdbl d m) end.
  Lemma mktree_ok n : forall v m, tok n (mktree pn n v m) (injN v) (injN m).
  Proof.
    induction n as [|n IH]; intros v m; cbn [mktree tok]; [now split|]. cbv zeta.
    assert (E : (1 + 1) * injN m = injN (nadd pn m m)) by (rewrite injN_nadd; ring). rewrite E. split; [apply IH|]. rewrite <- injN_nadd. apply IH.
  Qed.
  Lemma dbl_ok n : forall m, mdbl n (injN m) = injN (dbl pn n m).
  Proof. induction n as [|n IH]; intros m; cbn [mdbl dbl]; [reflexivity|]. rewrite <- IH. f_equal. rewrite injN_nadd. ring. Qed.
  Lemma mkrows_ok d n : forall m, rok d (mkrows pn d n m) (injN m).
  Proof.
    induction n as [|n IH]; intros m; cbn [mkrows rok]; [exact I|]. split; [|rewrite dbl_ok; apply IH].
    exact (mktree_ok d 0%N m).
  Qed.
  Lemma leftmost_ok n : forall t v m, tok n t v m -> injN (leftmost t) = v.
  Proof. induction n as [|n IH]; intros [u w|l r] v m H; cbn [tok] in H; try contradiction; cbn [leftmost]; [exact (proj1 H)|exact (IH _ _ _ (proj1 H))]. Qed.
  Lemma wsum_ok d : forall x n t rs v m, tok n t v m -> rok d rs (mdbl n m) -> injN (wsum x t rs) = v + injN (Npos x) * m.
  Proof.
    induction x as [y IH|y IH|]; intros n t rs v m Ht Hr.
    - destruct n as [|n], t as [u w|l r]; cbn [tok] in Ht; try contradiction; cbn [wsum].
      + rewrite injN_add, injN_mul. now rewrite (proj1 Ht), (proj2 Ht).
      + cbn [mdbl] in Hr. destruct Ht as [_ Ht]. rewrite injN_xI. destruct n as [|n], r as [u w|l' r']; cbn [tok] in Ht; try contradiction.
        * destruct rs as [|t' rs'].
          -- rewrite injN_add, injN_mul. rewrite (proj1 Ht), (proj2 Ht). ring.
          -- cbn [rok mdbl] in Hr. rewrite injN_add, (IH d t' rs' 0 _ (proj1 Hr) (proj2 Hr)), (proj1 Ht). ring.
        * rewrite (IH (S n) (DN l' r') rs _ _ Ht Hr). ring.
    - destruct n as [|n], t as [u w|l r]; cbn [tok] in Ht; try contradiction; cbn [wsum].
      + rewrite injN_add, injN_mul. now rewrite (proj1 Ht), (proj2 Ht).
      + cbn [mdbl] in Hr. destruct Ht as [Ht _]. rewrite injN_xO. destruct n as [|n], l as [u w|l' r']; cbn [tok] in Ht; try contradiction.
        * destruct rs as [|t' rs'].
          -- rewrite injN_add, injN_mul. rewrite (proj1 Ht), (proj2 Ht). ring.
          -- cbn [rok mdbl] in Hr. rewrite injN_add, (IH d t' rs' 0 _ (proj1 Hr) (proj2 Hr)), (proj1 Ht). ring.
        * rewrite (IH (S n) (DN l' r') rs _ _ Ht Hr). ring.
    - destruct n as [|n], t as [u w|l r]; cbn [tok] in Ht; try contradiction; cbn [wsum].
      + rewrite injN_add, injN_mul. now rewrite (proj1 Ht), (proj2 Ht).
      + rewrite (leftmost_ok n r _ _ (proj2 Ht)). change (injN 1%N) with (1 : F). ring.
  Qed.
  Lemma wmul_ok d t rs m x : rok d (t :: rs) m -> injN (wmul pn (t :: rs) x) = injN x * m.
  Proof.
    intros [Ht Hr]. destruct x as [|x]; cbn [wmul].
    - change (injN 0%N) with (0 : F). ring.
    - rewrite injN_red, (wsum_ok d x d t rs 0 m Ht Hr). ring.
  Qed.
  Lemma orbit_len rs n : forall y, length (orbit pn rs n y) = n.
  Proof. induction n as [|n IH]; intros y; cbn [orbit length]; auto. Qed.
  Lemma orbit_nth d t rs m n : rok d (t :: rs) m -> forall y i, (i < n)%nat -> injN (nth i (orbit pn (t :: rs) n y) 0%N) = injN y * m ^ i.
  Proof.
    intros H. induction n as [|n IH]; intros y [|i] Hi; try lia; cbn [orbit nth fpow]; [ring|].
    rewrite IH by lia. rewrite (wmul_ok d t rs m y H). ring.
  Qed.

  (** ** the keys *)
  (** five times the powers of g, up to the point where they become negative, then the
      opposites *)
  Definition keyed (n : nat) (rs : list dtree) : list N := let ys := orbit pn rs n 5%N in ys ++ map (fun y => (pn - y)%N) ys.
  Definition keys_check (n : nat) (rs : list dtree) : bool :=
    let ks := keyed n rs in forallb (fun y => (y <? pn)%N) ks && lowdist 64 ks.
  Theorem keys_distinct_big k d r (g : N) : injN g ^ (2 ^ k) = - (1) -> keys_check (2 ^ k) (mkrows pn d (S r) g) = true ->
    forall w w' : F, w ^ (2 ^ S k) = 1 -> w' ^ (2 ^ S k) = 1 -> omega_key F (fun x => Z.to_N (val p x)) w = omega_key F (fun x => Z.to_N (val p x)) w' -> w = w'.
  Proof.
    intros Ho C w w' Hw Hw' E. assert (Rk := mkrows_ok d (S r) g). cbn [mkrows] in C, Rk.
    set (t := mktree pn d 0 g) in *. set (rs := mkrows pn d r (dbl pn d g)) in *. clearbody t rs.
    destruct (torsion F k _ w Ho Hw) as (i & Hi & ->). destruct (torsion F k _ w' Ho Hw') as (j & Hj & ->).
    unfold keys_check in C. cbv zeta in C. apply andb_true_iff in C. destruct C as [Rg Nd]. rewrite forallb_forall in Rg. apply lowdist_ok in Nd.
    assert (E2 : (2 ^ S k = 2 ^ k + 2 ^ k)%nat) by (cbn [Nat.pow]; lia). rewrite E2 in Hi, Hj. set (n := (2 ^ k)%nat) in *. clearbody n.
    set (ks := keyed n (t :: rs)) in *.
    assert (Lk : length ks = (n + n)%nat) by (unfold ks, keyed; cbv zeta; rewrite app_length, map_length, orbit_len; reflexivity).
    assert (B : forall i, (i < n + n)%nat -> (nth i ks 0 < pn)%N) by (intros i0 H0; apply N.ltb_lt, Rg, nth_In; lia).
    assert (Five : forall x : F, injN 5%N * x = x + x + (x + x) + x).
    { intros x. change 5%N with (1 + 1 + (1 + 1) + 1)%N. rewrite !injN_add. change (injN 1%N) with (1 : F). ring. }
    assert (Kn : forall i, (i < n + n)%nat -> injN (nth i ks 0%N) = injN 5%N * injN g ^ i).
    { intros i0 H0. specialize (B i0 H0). revert B. unfold ks, keyed. cbv zeta. intros B. destruct (Nat.lt_ge_cases i0 n) as [L|L].
      - rewrite app_nth1 by (rewrite orbit_len; exact L). exact (orbit_nth d t rs _ n Rk 5%N i0 L).
      - assert (L2 : (i0 - n < n)%nat) by lia.
        assert (On := orbit_nth d t rs _ n Rk 5%N (i0 - n) L2).
        assert (Bl : (nth (i0 - n) (orbit pn (t :: rs) n 5) 0 < pn)%N).
        { apply N.ltb_lt, Rg. unfold ks, keyed. cbv zeta. apply in_or_app. left. apply nth_In. rewrite orbit_len. exact L2. }
        rewrite app_nth2 by (rewrite orbit_len; exact L). rewrite orbit_len.
        rewrite (nth_indep _ 0%N (pn - 0)%N) by (rewrite map_length, orbit_len; exact L2). rewrite map_nth.
        set (y := nth (i0 - n) (orbit pn (t :: rs) n 5) 0%N) in *. clearbody y.
        assert (Ep : injN (pn - y)%N = - injN y).
        { transitivity (injN (pn - y)%N + injN y - injN y); [ring|]. rewrite <- injN_add. replace (pn - y + y)%N with pn by lia. rewrite injN_p. ring. }
        rewrite Ep, On. replace i0 with (n + (i0 - n))%nat at 2 by lia. rewrite fpow_add, Ho. ring. }
    assert (Key : forall i, (i < n + n)%nat -> omega_key F (fun x => Z.to_N (val p x)) (injN g ^ i) = low 64 (nth i ks 0%N)).
    { intros i0 H0. unfold omega_key. rewrite <- Five, <- (Kn i0 H0). unfold injN. rewrite val_mk. specialize (B i0 H0). rewrite Z.mod_small by lia. rewrite N2Z.id. reflexivity. }
    rewrite (Key i Hi), (Key j Hj) in E.
    assert (K : i = j); [|now rewrite K].
    rewrite (NoDup_nth _ (low 64 0)) in Nd. rewrite map_length, Lk in Nd. apply Nd; auto. rewrite !map_nth. exact E.
  Qed.
  End Sem.
End Table.
