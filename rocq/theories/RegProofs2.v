(** Finalization of a registry, uniqueness of the interpolation, and the objects
    of program-defined circuits. *)
From Coq Require Import List Arith NArith Bool Lia.
From Verif Require Import FieldDef ModDef ArithModel FFTModel FFTProofs SparseModel SparseSpec SparseProofs CircModel SyModel CircSpec
  CircProofs2 SyProofs2 SProofs RegModel RegSpec RegProofs.
Import ListNotations.

(** the circuits of a builder in index order (registry.rs:190-196) *)
Definition reg_order {F : Field} (b : builder F) : list (cobj F) :=
  rb_internal F b ++ rb_bonding F b ++ rb_steps F b ++ rb_app F b.

Section Fin.
  Variable F : Field.
  Add Field FFrf : (f_theory F).
  Variable T : TwoAdic F.
  Variable repr : F -> N.
  Variables threads lg : nat.
  Variable hash : list N -> list N.
  Variable to_bytes : F -> list N.
  Variable from_uniform : list N -> F.
  Variable f_of_u64 : N -> F.
  Open Scope f_scope.

  Lemma order_length (b : builder F) : length (reg_order b) = num_circuits F b.
  Proof. unfold reg_order, num_circuits, num_internal_circuits. rewrite !app_length. lia. Qed.

  Lemma log2_fits (b : builder F) : (length (reg_order b) <= 2 ^ log2_circuits F b)%nat.
  Proof.
    rewrite order_length. unfold log2_circuits. destruct (num_circuits F b) as [|[|n]] eqn:E; [lia|cbn; lia|].
    rewrite <- E. pose proof (Nat.log2_up_spec (num_circuits F b) ltac:(lia)). lia.
  Qed.
  Lemma log2_bound (b : builder F) : (num_circuits F b <= rk_nc lg)%nat -> (log2_circuits F b <= lg + 2)%nat.
  Proof.
    intros H. unfold log2_circuits. apply (Nat.le_trans _ (Nat.log2_up (2 ^ (lg + 2)))).
    - apply Nat.log2_up_le_mono. unfold rk_nc, rk_n in H. rewrite Nat.pow_add_r. cbn [Nat.pow]. lia.
    - rewrite Nat.log2_up_pow2; lia.
  Qed.

  Hypothesis S32 : (ta_S T <= 32)%nat.

  Definition reg_with (b : builder F) (d : Domain F) (key : F) : registry F :=
    mk_registry F d (reg_order b) (map (fun c => floor_plan (ob_segs F c)) (reg_order b))
      (lookup_go F repr d (log2_circuits F b) 0 (length (reg_order b)) []) key.

  Lemma finalize_inv b r : finalize F T lg repr hash to_bytes from_uniform f_of_u64 b = Some r ->
    (num_circuits F b <= rk_nc lg)%nat /\ exists d,
      domain_new T (log2_circuits F b) = Some d /\ r = reg_with b d (rg_key F r) /\
      compute_registry_digest F lg repr hash to_bytes from_uniform f_of_u64 (reg_with b d f1) = Some (rg_key F r).
  Proof.
    unfold finalize. destruct (Nat.ltb_spec (rk_nc lg) (num_circuits F b)) as [L|L]; [discriminate|]. intros E. split; [exact L|].
    destruct (domain_new T (log2_circuits F b)) as [d|]; [|discriminate]. cbn [obind] in E. exists d. split; auto.
    fold (reg_order b) in E. fold (reg_with b d f1) in E.
    destruct (compute_registry_digest F lg repr hash to_bytes from_uniform f_of_u64 (reg_with b d f1)) as [key|]; [|discriminate].
    cbn [obind] in E. inversion E; subst r. cbn [rg_key]. split; reflexivity.
  Qed.

  Lemma digest_some b d ss : dom_ok F T (log2_circuits F b) d -> (log2_circuits F b <= ta_S T)%nat ->
    (log2_circuits F b <= lg + 2)%nat -> Forall2 (obj_is lg) (reg_order b) ss ->
    (forall w w' : F, w ^ (2 ^ log2_circuits F b) = 1 -> w' ^ (2 ^ log2_circuits F b) = 1 -> omega_key F repr w = omega_key F repr w' -> w = w') ->
    forall key, exists v, compute_registry_digest F lg repr hash to_bytes from_uniform f_of_u64 (reg_with b d key) = Some v.
  Proof.
    intros D K Kl O inj key. unfold compute_registry_digest.
    assert (G : forall fuel h w x y, exists v, digest_go F lg repr hash to_bytes from_uniform (reg_with b d key) fuel h w x y = Some v).
    { induction fuel as [|fuel IH]; intros h w x y; cbn [digest_go]; [eauto|].
      destruct (interp_exists F T 1 lg S32 (Nat.lt_0_succ 0) (log2_circuits F b) d D K Kl (reg_order b) ss O (log2_fits b) x y)
        as (P & (LP & _) & _ & V).
      unfold reg_with.
      rewrite (wxy_ok F T repr 1 lg S32 (Nat.lt_0_succ 0) (log2_circuits F b) d D K Kl inj (reg_order b) ss O (log2_fits b) key x y P w LP V).
      cbn [obind]. apply IH. }
    apply G.
  Qed.

  Lemma interp_unique k d vs P Q : dom_ok F T k d -> (k <= ta_S T)%nat ->
    interpolates T k vs P -> interpolates T k vs Q -> P = Q.
  Proof.
    intros D K (LP & P1 & P2) (LQ & Q1 & Q2). apply (nth_ext _ _ 0 0); [congruence|]. intros i _.
    apply (poly_unique F P Q (map (fun j => d_omega d ^ j) (seq 0 (2 ^ k)))).
    - apply NoDup_nth_error. intros a b A E. rewrite map_length, seq_length in A.
      rewrite !nth_error_map in E. rewrite (nth_error_nth' (seq 0 (2 ^ k)) O) in E by (rewrite seq_length; lia). rewrite seq_nth in E by lia.
      destruct (nth_error (seq 0 (2 ^ k)) b) as [b'|] eqn:B; [|discriminate].
      assert (Hb : (b < 2 ^ k)%nat) by (rewrite <- (seq_length (2 ^ k) 0); apply nth_error_Some; congruence).
      rewrite (nth_error_nth' (seq 0 (2 ^ k)) O) in B by (rewrite seq_length; lia). rewrite seq_nth in B by lia. inversion B; subst b'.
      cbn [option_map Nat.add] in E. inversion E as [E']. apply (dom_distinct F T k d a b D); auto.
    - rewrite map_length, seq_length. lia.
    - rewrite map_length, seq_length. lia.
    - intros r R. apply in_map_iff in R. destruct R as (j & <- & J). apply in_seq in J.
      assert (W : (d_omega d ^ j) ^ (2 ^ k) = 1) by (apply (pow_dom F T k d D)).
      destruct (proj1 (dom_is_omega F T S32 k d _ D K) W) as (a & A & E).
      destruct (Nat.lt_ge_cases a (length vs)) as [L|L].
      + rewrite E, P1, Q1 by auto. reflexivity.
      + assert (N : forall i, (i < length vs)%nat -> d_omega d ^ j <> omega_j T (N.of_nat i)).
        { intros i' I' E'. rewrite E in E'. destruct (Nat.lt_ge_cases i' (2 ^ k)) as [I2|I2]; [|lia].
          assert (Hk : (2 ^ k <= 2 ^ ta_S T)%nat) by (apply Nat.pow_le_mono_r; lia).
          apply (omega_j_inj F T S32) in E'; lia. }
        rewrite P2, Q2 by auto. reflexivity.
  Qed.
End Fin.

Section Prog.
  Variable F : Field.
  Open Scope f_scope.
  (** a program-defined circuit whose handles are used linearly and whose inputs
      do not name the D wire has, as an object, the wiring polynomial of the
      specification *)
  Lemma prog_cobj_is x0 x1 x2 x3 yc onec hc lg (body : prog F) outs o :
    prog_cobj x0 x1 x2 x3 yc onec hc lg body outs = Some o ->
    owned (orchestrate body outs) [] <> None -> hides_d body = true -> forallb ref_hides outs = true ->
    obj_is lg o (s_spec (2 ^ lg) (orchestrate body outs)).
  Proof.
    unfold prog_cobj. intros E O H R.
    destruct (object_ok F x0 x1 x2 x3 yc onec hc (rk_n lg) (rk_nc lg) body outs) as [A B].
    destruct (circuit_object x0 x1 x2 x3 yc onec hc (rk_n lg) (rk_nc lg) body outs) as [segs|] eqn:C; [|discriminate].
    cbn [obind] in E. inversion E; subst o; clear E. destruct (proj1 A ltac:(discriminate)) as [G1 G2].
    specialize (B segs eq_refl). unfold object_plan in B.
    unfold obj_is. cbn [ob_segs ob_sxy ob_sx ob_sy]. 
    rewrite B. unfold rk_nc in *. unfold rk_n in *. intros x y. split; [|split].
    - apply sxy_full; auto.
    - destruct (sx_full F (2 ^ lg) body outs x G1 G2) as (q & Eq & W & V); auto. exists q. auto.
    - destruct (sy_ok F (2 ^ lg) body outs y G1 G2 O) as (q & Eq & W & V). exists q. auto.
  Qed.
End Prog.
