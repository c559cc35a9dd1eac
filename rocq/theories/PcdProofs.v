From Coq Require Import List Arith Bool Lia Permutation.
From Verif Require Import PcdModel PcdSpec.
Import ListNotations.
Local Open Scope nat_scope.

Lemma combine_maps {T A B : Type} (f : T -> A) (g : T -> B) l : combine (map f l) (map g l) = map (fun t => (f t, g t)) l.
Proof. induction l; cbn; congruence. Qed.
Lemma zip_pad {K T : Type} (pre : list K) (zero : K) (l1 l2 : list T) : length l1 = length pre ->
  zip_ky (fun i => nth i pre zero) (l1 ++ l2) = combine l1 pre ++ map (fun t => (t, zero)) l2.
Proof.
  intros H. unfold zip_ky. rewrite app_length, seq_app, map_app.
  assert (E : map (fun i => nth i pre zero) (seq 0 (length l1)) = pre).
  { rewrite H. clear. induction pre as [|x pre IH]; cbn [length seq map nth]; [reflexivity|].
    f_equal. rewrite <- seq_shift, map_map. exact IH. }
  rewrite E. clear E.
  assert (E : map (fun i => nth i pre zero) (seq (0 + length l1) (length l2)) = map (fun _ => zero) l2).
  { cbn [plus]. assert (G : forall s, length pre <= s -> map (fun i => nth i pre zero) (seq s (length l2)) = map (fun _ => zero) l2).
    { induction l2 as [|x l2 IH]; intros s Hs; cbn [length seq map]; [reflexivity|].
      rewrite nth_overflow by lia. f_equal. apply IH. lia. }
    apply G. lia. }
  rewrite E. clear E. revert pre H. induction l1 as [|x l1 IH]; intros [|y pre] H; cbn in H |- *; try discriminate.
  - induction l2; cbn; congruence.
  - f_equal. apply IH. lia.
Qed.
Lemma combine_app' {A B : Type} (l1 l2 : list A) (r1 r2 : list B) : length l1 = length r1 ->
  combine (l1 ++ l2) (r1 ++ r2) = combine l1 r1 ++ combine l2 r2.
Proof. revert r1; induction l1; intros [|y r1] H; cbn in *; try discriminate; f_equal; auto. Qed.
Lemma perm_swap_maps {T U : Type} (fs : list (T -> U)) (l : list T) :
  Permutation (flat_map (fun f => map f l) fs) (flat_map (fun t => map (fun f => f t) fs) l).
Proof.
  induction l as [|t l IH]; cbn [flat_map map].
  - induction fs; cbn; auto.
  - rewrite <- IH. clear IH. induction fs as [|f fs IH]; cbn [flat_map map app]; [reflexivity|].
    constructor. rewrite IH. rewrite !app_assoc. apply Permutation_app_tail. apply Permutation_app_comm.
Qed.

Section Native.
  Context {R A K : Type}.
  Lemma build_of (vs : list (pview R A K)) : build_claims (source_of vs) =
    flat_map (fun f : pview R A K -> claim R A => map f vs)
      [ (fun v => CRaw (pv_rx v AbA) (pv_rx v AbB));
        (fun v => CApp (pv_app v) (pv_rx v (Rx RxApplication)));
        (fun v => CInt Hashes1Circuit (map (fun i => pv_rx v (Rx i)) (parts Hashes1Circuit)));
        (fun v => CInt Hashes2Circuit (map (fun i => pv_rx v (Rx i)) (parts Hashes2Circuit)));
        (fun v => CInt InnerCollapseCircuit (map (fun i => pv_rx v (Rx i)) (parts InnerCollapseCircuit)));
        (fun v => CInt OuterCollapseCircuit (map (fun i => pv_rx v (Rx i)) (parts OuterCollapseCircuit)));
        (fun v => CInt ComputeVCircuit (map (fun i => pv_rx v (Rx i)) (parts ComputeVCircuit))) ]
    ++ map fst (bond_claims (K := unit) (R := R) (A := A) tt (map (fun v => mk_pview (pv_rx v) (pv_app v) tt tt tt tt) vs)).
  Proof.
    unfold build_claims, source_of, icid_all. cbn [s_rx s_app flat_map app map].
    rewrite !combine_maps, !map_map.
    cbn [fst snd parts bonded map flat_map bond_claims pv_rx].
    rewrite !map_map. cbn [pv_rx]. rewrite <- !app_assoc, !app_nil_r. reflexivity.
  Qed.
  Lemma bond_fst {K' : Type} (zero : K') (vs : list (pview R A K)) :
    map (fun c => (c, zero)) (map fst (bond_claims (K := unit) tt (map (fun v => mk_pview (pv_rx v) (pv_app v) tt tt tt tt) vs)))
    = bond_claims (A := A) zero (map (fun v => mk_pview (pv_rx v) (pv_app v) zero zero zero zero) vs).
  Proof. unfold bond_claims. rewrite !map_map. apply map_ext. intros id. cbn [fst]. f_equal. f_equal.
    apply flat_map_ext. intros i. rewrite !map_map. reflexivity. Qed.
  Lemma ky_of (zero : K) (vs : list (pview R A K)) : ky_values (kysource_of zero vs) =
    fun i => nth i (flat_map (fun f => map f vs) [pv_c; pv_kapp; pv_kbridge; pv_kunified; pv_kunified; pv_kunified; pv_kunified]) zero.
  Proof. unfold ky_values, kysource_of. cbn [k_raw k_app k_bridge k_unified k_zero flat_map repeat concat NUM_UNIFIED_CIRCUITS].
    rewrite !app_nil_r. reflexivity. Qed.
  Lemma bond_same (zero : K) (vs : list (pview R A K)) :
    bond_claims (A := A) zero (map (fun v => mk_pview (pv_rx v) (pv_app v) zero zero zero zero) vs) = bond_claims zero vs.
  Proof. unfold bond_claims. apply map_ext. intros id. f_equal. f_equal. apply flat_map_ext. intros i. rewrite map_map. reflexivity. Qed.
  Lemma native_zip (zero : K) (vs : list (pview R A K)) :
    zip_ky (ky_values (kysource_of zero vs)) (build_claims (source_of vs)) =
    flat_map (fun f => map f vs)
      [ (fun v => (CRaw (pv_rx v AbA) (pv_rx v AbB), pv_c v));
        (fun v => (CApp (pv_app v) (pv_rx v (Rx RxApplication)), pv_kapp v));
        (fun v => (CInt Hashes1Circuit (map (fun i => pv_rx v (Rx i)) (parts Hashes1Circuit)), pv_kbridge v));
        (fun v => (CInt Hashes2Circuit (map (fun i => pv_rx v (Rx i)) (parts Hashes2Circuit)), pv_kunified v));
        (fun v => (CInt InnerCollapseCircuit (map (fun i => pv_rx v (Rx i)) (parts InnerCollapseCircuit)), pv_kunified v));
        (fun v => (CInt OuterCollapseCircuit (map (fun i => pv_rx v (Rx i)) (parts OuterCollapseCircuit)), pv_kunified v));
        (fun v => (CInt ComputeVCircuit (map (fun i => pv_rx v (Rx i)) (parts ComputeVCircuit)), pv_kunified v)) ]
    ++ bond_claims zero vs.
  Proof.
    rewrite ky_of, build_of, zip_pad.
    2: { cbn [flat_map]. rewrite !app_length, !map_length. reflexivity. }
    rewrite bond_fst, bond_same. f_equal.
    cbn [flat_map]. rewrite !app_nil_r.
    repeat (rewrite combine_app' by (rewrite !map_length; reflexivity)).
    rewrite !combine_maps. reflexivity.
  Qed.
  Lemma native_perm (zero : K) (vs : list (pview R A K)) :
    Permutation (zip_ky (ky_values (kysource_of zero vs)) (build_claims (source_of vs)))
                (flat_map own_claims vs ++ bond_claims zero vs).
  Proof.
    rewrite native_zip. apply Permutation_app_tail.
    rewrite perm_swap_maps. reflexivity.
  Qed.
End Native.

Section Nested.
  Context {R K A : Type}.
  Definition nsource_of (ps : list (nrxid -> R)) (apps : list A) : source nrxid R A := mk_source (fun c => map (fun p => p c) ps) apps.
  Lemma build_nested_of (steps : nat) (ps : list (nrxid -> R)) (apps : list A) : build_nested steps (nsource_of ps apps) =
    flat_map (fun s => map (fun p => NInt (NStep s) [p (NrStep s); p NrEndoscalar; p NrPoints]) ps) (seq 0 steps)
    ++ map fst (nested_bond tt steps ps).
  Proof.
    unfold build_nested, ncid_all, nsource_of. cbn [s_rx]. rewrite flat_map_app. f_equal.
    - rewrite flat_map_concat_map, map_map, <- flat_map_concat_map. apply flat_map_ext. intros s.
      rewrite !combine_maps, map_map. reflexivity.
  Qed.
  Lemma nested_bond_fst (zero : K) steps ps : map (fun c => (c, zero)) (map fst (nested_bond tt steps ps)) = nested_bond (R := R) zero steps ps.
  Proof. reflexivity. Qed.
  Lemma nested_zip (one zero : K) steps (p : nrxid -> R) (apps : list A) :
    zip_ky (nested_ky steps one zero) (build_nested steps (nsource_of [p] apps)) = nested_own one steps p ++ nested_bond zero steps [p].
  Proof.
    rewrite build_nested_of. unfold nested_ky.
    assert (E : flat_map (fun s => map (fun p => NInt (NStep s) [p (NrStep s); p NrEndoscalar; p NrPoints]) [p]) (seq 0 steps)
      = map (fun s => NInt (NStep s) [p (NrStep s); p NrEndoscalar; p NrPoints]) (seq 0 steps)).
    { induction (seq 0 steps); cbn in *; congruence. }
    rewrite E, (zip_pad (repeat one steps) zero).
    2: { rewrite map_length, seq_length, repeat_length. reflexivity. }
    rewrite nested_bond_fst. f_equal. unfold nested_own. clear E.
    generalize 0. induction steps; intros s0; cbn [seq map repeat combine]; [reflexivity|]. f_equal. apply IHsteps.
  Qed.
End Nested.

(** how many entries carry the value [one] *)
Section Counting.
  Context {R K A : Type} (eqK : forall x y : K, {x = y} + {x <> y}).
  Lemma ones_zip {T : Type} (one zero : K) steps (l : list T) : one <> zero ->
    count_occ eqK (map snd (zip_ky (nested_ky steps one zero) l)) one = Nat.min steps (length l).
  Proof.
    intros H. unfold zip_ky, nested_ky.
    assert (G : forall (l : list T) k s, map snd (combine l (map (fun i => nth i (repeat one k) zero) (seq s (length l))))
       = map (fun i => nth i (repeat one k) zero) (seq s (length l))).
    { clear. induction l as [|t l IH]; intros k s; cbn [length seq map combine snd]; [reflexivity|]. f_equal. apply IH. }
    rewrite G. clear G. generalize (length l). clear l. intros m.
    assert (G : forall m s, count_occ eqK (map (fun i => nth i (repeat one steps) zero) (seq s m)) one = Nat.min (steps - s) m).
    { clear m. induction m as [|m IH]; intros s; cbn [seq map count_occ].
      - rewrite Nat.min_0_r. reflexivity.
      - rewrite IH. destruct (lt_dec s steps) as [L|L].
        + rewrite nth_indep with (d' := one) by (rewrite repeat_length; exact L).
          rewrite nth_repeat. destruct (eqK one one) as [_|N]; [lia|congruence].
        + rewrite nth_overflow by (rewrite repeat_length; lia).
          destruct (eqK zero one) as [E|_]; [congruence|]. lia. }
    rewrite G. f_equal. lia.
  Qed.
  Lemma ones_own (one zero : K) steps (p : nrxid -> R) : count_occ eqK (map snd (nested_own one steps p)) one = steps.
  Proof. unfold nested_own. rewrite map_map. cbn [snd]. generalize 0. induction steps; intros s; cbn [seq map count_occ]; [reflexivity|].
    destruct (eqK one one); [|congruence]. f_equal. apply IHsteps. Qed.
  Lemma nested_only_one (one zero : K) steps (ps : list (nrxid -> R)) (apps : list A) : one <> zero -> 0 < steps ->
    Permutation (zip_ky (nested_ky steps one zero) (build_nested steps (nsource_of ps apps)))
                (flat_map (nested_own one steps) ps ++ nested_bond zero steps ps) ->
    length ps = 1.
  Proof.
    intros H01 Hs HP.
    assert (C : count_occ eqK (map snd (zip_ky (nested_ky steps one zero) (build_nested steps (nsource_of ps apps)))) one
       = count_occ eqK (map snd (flat_map (nested_own one steps) ps ++ nested_bond zero steps ps)) one).
    { apply Permutation_count_occ. apply Permutation_map. exact HP. }
    rewrite ones_zip, map_app, count_occ_app in C by exact H01.
    assert (E1 : count_occ eqK (map snd (flat_map (nested_own one steps) ps)) one = length ps * steps).
    { clear - zero. induction ps as [|p ps IH]; cbn [flat_map length]; [reflexivity|].
      rewrite map_app, count_occ_app, (ones_own one zero), IH. reflexivity. }
    assert (E2 : count_occ eqK (map snd (nested_bond zero steps ps)) one = 0).
    { unfold nested_bond. cbn [map snd count_occ]. destruct (eqK zero one); [congruence|reflexivity]. }
    rewrite E1, E2 in C.
    assert (L : 0 < length (build_nested steps (nsource_of ps apps))).
    { rewrite build_nested_of, app_length. unfold nested_bond. cbn [map length]. lia. }
    destruct ps as [|p [|q ps]]; cbn [length] in *; [lia|reflexivity|nia].
  Qed.
End Counting.
