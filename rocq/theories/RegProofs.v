(** Proofs about the registry. *)
From Coq Require Import List Arith NArith Bool Lia Ring Field.
From Verif Require Import FieldDef ModDef FFTModel FFTProofs SparseModel SparseSpec SparseProofs SparseProofs2 CircModel RegModel RegSpec.
Import ListNotations.

Lemma forall2_nth {A B} (R : A -> B -> Prop) l l' : Forall2 R l l' ->
  forall i a, nth_error l i = Some a -> exists b, nth_error l' i = Some b /\ R a b.
Proof.
  induction 1 as [|x y l l' H H' IH]; intros [|i] a E; cbn in *; try discriminate.
  - inversion E; subst. eauto.
  - eauto.
Qed.

Lemma forall2_length {A B} (R : A -> B -> Prop) l l' : Forall2 R l l' -> length l = length l'.
Proof. induction 1; cbn; congruence. Qed.

(** ** identifiers *)
Section Omega.
  Variable F : Field.
  Add Field FFro : (f_theory F).
  Variable T : TwoAdic F.
  Open Scope f_scope.
  Hypothesis S32 : (ta_S T <= 32)%nat.

  Lemma bitrev_shift j l m : (l + m <= 32)%nat -> (j < 2 ^ l)%nat -> bitrev j (l + m) = (2 ^ m * bitrev j l)%nat.
  Proof.
    intros H J. induction m as [|m IH].
    - rewrite Nat.add_0_r. cbn. lia.
    - rewrite Nat.add_succ_r. rewrite bitrev_low.
      + rewrite IH by lia. cbn [Nat.pow]. lia.
      + lia.
      + eapply Nat.lt_le_trans; [exact J|]. apply Nat.pow_le_mono_r; lia.
  Qed.
  Lemma omega_j_dom k d i : dom_ok F T k d -> (k <= ta_S T)%nat -> (i < 2 ^ k)%nat ->
    omega_j T (N.of_nat i) = d_omega d ^ bitrev i k.
  Proof.
    intros D K I. unfold omega_j. fold (bitrev i (ta_S T)).
    replace (ta_S T) with (k + (ta_S T - k))%nat at 1 by lia. rewrite bitrev_shift by lia.
    rewrite (do_omega _ _ _ _ D). rewrite <- fpow_mul. reflexivity.
  Qed.
  Lemma omega_j_inj i j : (i < 2 ^ ta_S T)%nat -> (j < 2 ^ ta_S T)%nat ->
    omega_j T (N.of_nat i) = omega_j T (N.of_nat j) -> i = j.
  Proof.
    intros I J E. pose proof (dom_default_ok F T) as D.
    rewrite !(omega_j_dom (ta_S T) _ _ D) in E by auto.
    apply (dom_distinct F T _ _ _ _ D) in E; [|apply bitrev_lt; lia..].
    rewrite <- (bitrev_invol i (ta_S T)), <- (bitrev_invol j (ta_S T)) by lia. now rewrite E.
  Qed.
  Lemma omega_j_in k d i : dom_ok F T k d -> (k <= ta_S T)%nat -> (i < 2 ^ ta_S T)%nat ->
    (d_contains d (omega_j T (N.of_nat i)) = true <-> (i < 2 ^ k)%nat).
  Proof.
    intros D K I. rewrite (contains_ok F T k d _ D). split.
    - intros (j & J & E). replace (d_omega d ^ j) with (d_omega d ^ bitrev (bitrev j k) k) in E by (rewrite bitrev_invol by lia; auto).
      pose proof (bitrev_lt j k ltac:(lia)) as B. rewrite <- (omega_j_dom k d) in E by auto.
      apply omega_j_inj in E; auto; [lia|]. eapply Nat.lt_le_trans; [exact B|]. apply Nat.pow_le_mono_r; lia.
    - intros L. exists (bitrev i k). split; [apply bitrev_lt; lia|]. now apply omega_j_dom.
  Qed.
  (** the domain is exactly the 2^k smallest identifiers *)
  Lemma dom_is_omega k d w : dom_ok F T k d -> (k <= ta_S T)%nat ->
    (w ^ (2 ^ k) = 1 <-> exists i, (i < 2 ^ k)%nat /\ w = omega_j T (N.of_nat i)).
  Proof.
    intros D K. assert (E : d_contains d w = feqb (w ^ (2 ^ k)) 1) by (unfold d_contains; now rewrite (do_n _ _ _ _ D)).
    rewrite <- feqb_true, <- E. rewrite (contains_ok F T k d _ D). split.
    - intros (j & J & ->). exists (bitrev j k). split; [apply bitrev_lt; lia|]. rewrite (omega_j_dom k d) by (auto using bitrev_lt; apply bitrev_lt; lia).
      now rewrite bitrev_invol by lia.
    - intros (i & I & ->). exists (bitrev i k). split; [apply bitrev_lt; lia|]. now apply omega_j_dom.
  Qed.
End Omega.

(** ** the lookup table *)
Section Lookup.
  Variable F : Field.
  Variable T : TwoAdic F.
  Variable repr : F -> N.
  Open Scope f_scope.
  Hypothesis S32 : (ta_S T <= 32)%nat.
  Variable k : nat.
  Variable d : Domain F.
  Hypothesis D : dom_ok F T k d.
  Hypothesis K : (k <= ta_S T)%nat.
  Hypothesis inj : forall w w' : F, w ^ (2 ^ k) = 1 -> w' ^ (2 ^ k) = 1 -> omega_key F repr w = omega_key F repr w' -> w = w'.

  Lemma pow_dom j : (d_omega d ^ j) ^ (2 ^ k) = 1.
  Proof. rewrite <- fpow_mul, Nat.mul_comm, fpow_mul, (dom_pow_n F T k d D). apply fpow_one. Qed.
  Lemma lookup_go_ok n : forall i m w, (i + n <= 2 ^ k)%nat -> w ^ (2 ^ k) = 1 ->
    lookup_key (lookup_go F repr d k i n m) (omega_key F repr w)
    = match lookup_key (lookup_go F repr d k i n []) (omega_key F repr w) with Some j => Some j | None => lookup_key m (omega_key F repr w) end.
  Proof.
    induction n as [|n IH]; intros i m w H W; cbn [lookup_go]; auto.
    rewrite IH by (auto; lia). rewrite (IH (S i) [_]) by (auto; lia).
    destruct (lookup_key (lookup_go F repr d k (S i) n []) (omega_key F repr w)); auto.
    cbn [lookup_key]. destruct (N.eqb _ _); auto.
  Qed.
  Lemma lookup_ok n : forall i j, (i + n <= 2 ^ k)%nat -> (j < 2 ^ k)%nat ->
    lookup_key (lookup_go F repr d k i n []) (omega_key F repr (omega_j T (N.of_nat j)))
    = if (i <=? j) && (j <? i + n) then Some j else None.
  Proof.
    assert (W : forall j, (j < 2 ^ k)%nat -> omega_j T (N.of_nat j) ^ (2 ^ k) = 1).
    { intros j J. rewrite (omega_j_dom F T S32 k d) by auto. apply pow_dom. }
    induction n as [|n IH]; intros i j H J.
    - cbn [lookup_go lookup_key]. destruct (Nat.leb_spec i j), (Nat.ltb_spec j (i + 0)); auto; lia.
    - cbn [lookup_go]. rewrite lookup_go_ok by (auto; lia). rewrite IH by lia.
      destruct (Nat.leb_spec (S i) j), (Nat.ltb_spec j (S i + n)), (Nat.leb_spec i j), (Nat.ltb_spec j (i + S n)); cbn [andb]; try lia; auto;
      cbn [lookup_key]; destruct (N.eqb_spec (omega_key F repr (d_omega d ^ bitrev i k)) (omega_key F repr (omega_j T (N.of_nat j)))) as [E|E]; auto.
      all: try (f_equal; lia).
      all: try (apply inj in E; [|apply pow_dom|apply W; lia]; rewrite <- (omega_j_dom F T S32 k d) in E by (auto; lia);
        apply omega_j_inj in E; auto; [lia|eapply Nat.lt_le_trans; [|apply Nat.pow_le_mono_r; [|exact K]]; lia..]).
      exfalso. apply E. f_equal. replace j with i by lia. rewrite (omega_j_dom F T S32 k d) by (auto; lia). reflexivity.
  Qed.
End Lookup.

(** ** restrictions *)
Section Restrict.
  Variable F : Field.
  Add Field FFrr : (f_theory F).
  Variable T : TwoAdic F.
  Variable repr : F -> N.
  Variables threads lg : nat.
  Open Scope f_scope.
  Hypothesis S32 : (ta_S T <= 32)%nat.
  Hypothesis threads_pos : (0 < threads)%nat.
  Variable k : nat.
  Variable d : Domain F.
  Hypothesis D : dom_ok F T k d.
  Hypothesis K : (k <= ta_S T)%nat.
  Hypothesis Kl : (k <= lg + 2)%nat.
  Hypothesis inj : forall w w' : F, w ^ (2 ^ k) = 1 -> w' ^ (2 ^ k) = 1 -> omega_key F repr w = omega_key F repr w' -> w = w'.

  Variable cs : list (cobj F).
  Variable ss : list (F -> F -> F).
  Hypothesis objs : Forall2 (obj_is lg) cs ss.
  Hypothesis fits : (length cs <= 2 ^ k)%nat.
  Variable key : F.
  Let nc := (4 * 2 ^ lg)%nat.
  Let plans := map (fun c => floor_plan (ob_segs F c)) cs.
  Let r := mk_registry F d cs plans (lookup_go F repr d k 0 (length cs) []) key.

  Lemma nc_dom : (2 ^ k <= nc)%nat.
  Proof. unfold nc. replace 4%nat with (2 ^ 2)%nat by reflexivity. rewrite <- Nat.pow_add_r. apply Nat.pow_le_mono_r; lia. Qed.
  Lemma nc_pos : (1 <= 2 ^ lg)%nat.
  Proof. pose proof (Nat.pow_nonzero 2 lg). lia. Qed.
  Lemma ss_length : length ss = length cs.
  Proof. symmetry. exact (forall2_length _ _ _ objs). Qed.
  Lemma nth_obj i c : nth_error cs i = Some c -> exists s, nth_error ss i = Some s /\ obj_is lg c s.
  Proof.
    apply (forall2_nth (obj_is lg) cs ss objs).
  Qed.

  (** value of slot j of the domain *)
  Definition slot (x y : F) (j : nat) : F := match nth_error ss (bitrev j k) with Some s => s x y | None => 0 end.

  Lemma interp_exists x y : exists P, interpolates T k (map (fun s => s x y) ss) P /\
    d_ifft threads d (map (slot x y) (seq 0 (2 ^ k))) = Some P /\
    forall j, (j < 2 ^ k)%nat -> peval P (d_omega d ^ j) = slot x y j.
  Proof.
    destruct (fft_ifft F T (FieldMod F) threads threads k d (map (slot x y) (seq 0 (2 ^ k))) D ltac:(lia) threads_pos threads_pos)
      as (P & E1 & E2); [now rewrite map_length, seq_length|].
    assert (LP : length P = (2 ^ k)%nat).
    { destruct (ifft_raw F T (FieldMod F) threads k d (map (slot x y) (seq 0 (2 ^ k))) D ltac:(lia) threads_pos) as (P' & E' & L' & _);
        [now rewrite map_length, seq_length|]. rewrite E' in E1. inversion E1; subst. exact L'. }
    destruct (ring_fft_ok F T (FieldMod F) threads k d P D ltac:(lia) threads_pos LP) as (e & E3 & Le & Ne).
    rewrite E2 in E3. inversion E3; subst e.
    assert (V : forall j, (j < 2 ^ k)%nat -> peval P (d_omega d ^ j) = slot x y j).
    { intros j J. specialize (Ne j J). rewrite msum_fsum in Ne.
      change (nth j (map (slot x y) (seq 0 (2 ^ k))) (0 : F) = fsum (2 ^ k) (fun j0 => (d_omega d ^ j) ^ j0 * nth j0 P 0)) in Ne.
      rewrite (nth_indep _ 0 (slot x y 0)) in Ne by (rewrite map_length, seq_length; exact J).
      rewrite map_nth, seq_nth in Ne by exact J. cbn [Nat.add] in Ne. rewrite Ne.
      rewrite peval_fsum. change (length P) with (@length (FieldMod F) P). rewrite LP. apply fsum_ext. intros i _.
      assert (MC : forall a b : F, a * b = b * a) by (intros; ring). apply MC. }
    exists P. split; [|split; [exact E1|exact V]]. split; [exact LP|]. rewrite map_length, ss_length. split.
    - intros i I. rewrite (omega_j_dom F T S32 k d) by (auto; lia). rewrite V by (apply bitrev_lt; lia).
      unfold slot. rewrite bitrev_invol by lia. rewrite <- ss_length in I. clear -I. revert i I. generalize ss.
      induction ss0 as [|s ss0 IH]; intros [|i] I; cbn in *; try lia; auto. apply IH. lia.
    - intros w W N. rewrite (dom_is_omega F T S32 k d) in W by auto. destruct W as (i & I & ->).
      rewrite (omega_j_dom F T S32 k d) by auto. rewrite V by (apply bitrev_lt; lia). unfold slot. rewrite bitrev_invol by lia.
      destruct (nth_error ss i) eqn:E; auto. exfalso. apply (N i); auto. rewrite <- ss_length. apply nth_error_Some. congruence.
  Qed.

  Section Point.
    Variables x y : F.
    Variable P : list F.
    Hypothesis LP : length P = (2 ^ k)%nat.
    Hypothesis V : forall j, (j < 2 ^ k)%nat -> peval P (d_omega d ^ j) = slot x y j.

    Section W.
      Variable A : Type.
      Variable add_poly : cobj F -> list cseg -> F -> A -> option A.
      Variable good : A -> Prop.
      Variable val : A -> F.
      Hypothesis add_ok : forall c s coeff acc, obj_is lg c s -> good acc ->
        exists acc', add_poly c (floor_plan (ob_segs F c)) coeff acc = Some acc' /\ good acc' /\ val acc' = val acc + coeff * s x y.

      Lemma add_nth_ok i coeff acc : good acc ->
        exists acc', add_nth F A add_poly r i coeff acc = Some acc' /\ good acc' /\
          val acc' = val acc + coeff * (match nth_error ss i with Some s => s x y | None => 0 end).
      Proof.
        intros G. unfold add_nth. cbn [rg_circuits rg_plans r]. unfold plans.
        destruct (nth_error cs i) as [c|] eqn:E.
        - destruct (nth_obj i c E) as (s & Es & O). rewrite Es. rewrite (map_nth_error _ _ _ E). now apply add_ok.
        - exists acc. split; auto. split; auto. replace (nth_error ss i) with (@None (F -> F -> F)); [ring|].
          symmetry. apply nth_error_None. rewrite ss_length. now apply nth_error_None.
      Qed.
      Lemma interp_go_ok coeffs : forall j acc, good acc ->
        exists acc', interp_go F A add_poly r j coeffs acc = Some acc' /\ good acc' /\
          val acc' = val acc + fsum (length coeffs) (fun i => slot x y (j + i) * nth i coeffs 0).
      Proof.
        induction coeffs as [|c coeffs IH]; intros j acc G; cbn [interp_go length].
        - exists acc. cbn. split; auto. split; auto. ring.
        - cbn [rg_domain r]. rewrite (do_log _ _ _ _ D). destruct (add_nth_ok (bitrev j k) c acc G) as (a1 & E1 & G1 & V1).
          rewrite E1. cbn [obind]. destruct (IH (S j) a1 G1) as (a2 & E2 & G2 & V2). exists a2. split; auto. split; auto.
          rewrite V2, V1, fsum_S_first. cbn [nth]. rewrite Nat.add_0_r. fold (slot x y j).
          rewrite (fsum_ext F _ (fun i => slot x y (S j + i) * nth i coeffs 0) (fun i => slot x y (j + S i) * nth i coeffs 0))
            by (intros i _; do 2 f_equal; lia). ring.
      Qed.
      Lemma cached_ok w init : good init ->
        exists cache a, reg_at F repr r w = Some cache /\ w_cached F A add_poly r cache init = Some a /\ good a /\ val a = val init + peval P w.
      Proof.
        intros G. unfold reg_at. cbn [rg_domain rg_lookup r]. rewrite (do_n _ _ _ _ D).
        destruct (ell_ok F T k d w (2 ^ k) D (Nat.le_refl _)) as [E1 E2]. destruct (d_contains d w) eqn:C.
        - rewrite E1 by auto. assert (W : w ^ (2 ^ k) = 1).
          { unfold d_contains in C. rewrite (do_n _ _ _ _ D) in C. now apply feqb_true in C. }
          apply (dom_is_omega F T S32 k d) in W; auto. destruct W as (j & J & ->).
          rewrite (lookup_ok F T repr S32 k d D K inj (length cs) 0 j) by lia.
          assert (PV : peval P (omega_j T (N.of_nat j)) = match nth_error ss j with Some s => s x y | None => 0 end).
          { rewrite (omega_j_dom F T S32 k d) by auto. rewrite V by (apply bitrev_lt; lia). unfold slot. now rewrite bitrev_invol by lia. }
          destruct (Nat.leb_spec 0 j), (Nat.ltb_spec j (0 + length cs)); cbn [andb]; try lia.
          + exists (LDirect F j). destruct (add_nth_ok j 1 init G) as (a & E & Ga & Va). exists a. split; auto. split; auto. split; auto.
            rewrite Va, PV. ring.
          + exists (LEmpty F), init. split; auto. split; auto. split; auto. rewrite PV.
            replace (nth_error ss j) with (@None (F -> F -> F)); [ring|]. symmetry. apply nth_error_None. rewrite ss_length. lia.
        - destruct (E2 eq_refl) as (ls & E & L & _). rewrite E. exists (LInterpolate F ls).
          destruct (interp_go_ok ls 0 init G) as (a & Ea & Ga & Va). exists a. split; auto. split; auto. split; auto.
          rewrite Va. f_equal. rewrite <- (ell_interp F T k d w ls D E P) by lia. rewrite L. apply fsum_ext. intros i I. cbn [Nat.add]. now rewrite V by auto.
      Qed.
    End W.
  End Point.

  Lemma key_sxy_ok x y : key_sxy F lg r x y = key * (x * y) ^ (nc - 1).
  Proof.
    unfold key_sxy. cbn [rg_key r]. assert (N : (nc - 1 <> 0)%nat) by (unfold nc; pose proof nc_pos; lia).
    destruct (feqb x 0) eqn:E; [apply feqb_true in E; subst|cbn [orb]; destruct (feqb y 0) eqn:E'; [apply feqb_true in E'; subst|reflexivity]].
    - cbn [orb]. replace (0 * y) with (0 : F) by ring. rewrite fpow_zero by auto. ring.
    - replace (x * 0) with (0 : F) by ring. rewrite fpow_zero by auto. ring.
  Qed.

  Lemma p_add_eval (p q : poly F) : wf 0 nc p -> wf 0 nc q -> exists s, p_add nc p q = Some s /\ wf 0 nc s /\
    forall z, p_eval nc s z = p_eval nc p z + p_eval nc q z.
  Proof.
    intros Wp Wq. destruct (add_ok F nc p q Wp Wq) as (s & E & Ws & C). exists s. split; auto. split; auto.
    intros z. rewrite !eval_ok by auto. rewrite <- fsum_add. apply fsum_ext. intros i _. rewrite C. ring.
  Qed.
  Lemma p_scale_eval c (p : poly F) z : wf 0 nc p -> wf 0 nc (p_scale c p) /\ p_eval nc (p_scale c p) z = c * p_eval nc p z.
  Proof.
    intros Wp. destruct (scale_ok F 0 nc c p Wp) as [Ws C]. split; auto. rewrite !eval_ok by auto.
    rewrite <- fsum_scale. apply fsum_ext. intros i _. rewrite C. ring.
  Qed.
  (** a polynomial that is c at degree 4n-1 only *)
  Lemma top_eval (q : poly F) c z : wf 0 nc q -> (forall i, coeff_at q i = if Nat.eqb i (nc - 1) then c else 0) ->
    p_eval nc q z = c * z ^ (nc - 1).
  Proof.
    intros W C. rewrite eval_ok by auto. rewrite (fsum_ext F _ _ (fun i => (if Nat.eqb i (nc - 1) then 1 else 0) * (c * z ^ i))).
    - rewrite (fsum_single F nc (nc - 1)).
      + rewrite Nat.eqb_refl. ring.
      + unfold nc. pose proof nc_pos. lia.
      + intros i _ N. apply Nat.eqb_neq in N. rewrite N. ring.
    - intros i _. rewrite C. destruct (Nat.eqb i (nc - 1)); ring.
  Qed.
  Lemma key_x_poly (c : F) : exists q, from_coeffs nc (repeat (0 : F) (nc - 1) ++ [c]) = Some q /\ wf 0 nc q /\ forall z, p_eval nc q z = c * z ^ (nc - 1).
  Proof.
    assert (N : (1 <= nc)%nat) by (unfold nc; pose proof nc_pos; lia).
    destruct (from_coeffs_ok F nc (repeat (0 : F) (nc - 1) ++ [c])) as (q & E & W & C & _).
    { rewrite app_length, repeat_length. cbn. lia. }
    exists q. split; auto. split; auto. intros z. apply top_eval; auto. intros i. rewrite C.
    destruct (Nat.eqb_spec i (nc - 1)) as [->|Ne].
    - rewrite app_nth2; rewrite repeat_length; [|lia]. now rewrite Nat.sub_diag.
    - destruct (Nat.lt_ge_cases i (nc - 1)).
      + rewrite app_nth1 by (rewrite repeat_length; auto). apply nth_repeat.
      + apply nth_overflow. rewrite app_length, repeat_length. cbn. lia.
  Qed.
  Lemma key_y_poly (c : F) : exists q, wiring_build nc (2 ^ lg) [] [] [c] [] = Some q /\ wf 0 nc q /\ forall z, p_eval nc q z = c * z ^ (nc - 1).
  Proof.
    pose proof nc_pos as N. destruct (wiring_build_ok F (2 ^ lg) [] [] [c] []) as (q & E & W & C); try (cbn; lia).
    exists q. split; auto. split; auto. intros z. apply top_eval; auto. intros i. rewrite C.
    unfold nc in *. set (n := (2 ^ lg)%nat) in *. clearbody n. unfold trace_coeff.
    destruct (Nat.ltb_spec i n); [destruct (Nat.eqb_spec i (4 * n - 1)); [lia|destruct i; reflexivity]|].
    destruct (Nat.ltb_spec i (2 * n)); [destruct (Nat.eqb_spec i (4 * n - 1)); [lia|]; destruct (2 * n - 1 - i)%nat; reflexivity|].
    destruct (Nat.ltb_spec i (3 * n)); [destruct (Nat.eqb_spec i (4 * n - 1)); [lia|]; destruct (i - 2 * n)%nat; reflexivity|].
    destruct (Nat.ltb_spec i (4 * n)).
    - destruct (Nat.eqb_spec i (4 * n - 1)) as [->|].
      + now rewrite Nat.sub_diag.
      + replace (4 * n - 1 - i)%nat with (S (4 * n - 2 - i)) by lia. destruct (4 * n - 2 - i)%nat; reflexivity.
    - destruct (Nat.eqb_spec i (4 * n - 1)); [lia|reflexivity].
  Qed.

  Definition m_value (P : list F) (w x y : F) : F := peval P w + key * (x * y) ^ (nc - 1).

  Lemma wxy_ok x y P w : length P = (2 ^ k)%nat -> (forall j, (j < 2 ^ k)%nat -> peval P (d_omega d ^ j) = slot x y j) ->
    reg_wxy F lg repr r w x y = Some (m_value P w x y).
  Proof.
    intros LP V. unfold reg_wxy, at_xy.
    destruct (cached_ok x y P LP V F (fun c p coeff acc => obind (ob_sxy F c x y p) (fun v => Some (acc + v * coeff)))
                (fun _ => True) (fun a => a)) with (w := w) (init := 0 : F) as (cache & a & Ec & Ea & _ & Va); auto.
    - intros c s coeff acc O _. destruct (O x y) as (E & _). rewrite E. cbn [obind]. eexists. split; [reflexivity|]. split; auto. ring.
    - rewrite Ec. cbn [obind]. rewrite Ea. cbn [obind]. rewrite key_sxy_ok. unfold m_value. rewrite Va. f_equal. ring.
  Qed.
  Lemma wx_ok x y P w : length P = (2 ^ k)%nat -> (forall j, (j < 2 ^ k)%nat -> peval P (d_omega d ^ j) = slot x y j) ->
    exists q, reg_wx F lg repr r w x = Some q /\ wf 0 nc q /\ p_eval nc q y = m_value P w x y.
  Proof.
    intros LP V. unfold reg_wx, at_x.
    destruct (cached_ok x y P LP V (poly F) (fun c p coeff acc => obind (ob_sx F c x p) (fun tmp => p_add (rk_nc lg) acc (p_scale coeff tmp)))
                (wf 0 nc) (fun a => p_eval nc a y)) with (w := w) (init := p_new : poly F) as (cache & a & Ec & Ea & Wa & Va).
    - intros c s coeff acc O W. destruct (O x y) as (_ & (q & E & Wq & Vq) & _). rewrite E. cbn [obind]. fold nc in Wq, Vq.
      destruct (p_scale_eval coeff q y Wq) as [Ws Vs]. destruct (p_add_eval acc _ W Ws) as (t & Et & Wt & Vt). exists t.
      split; [exact Et|]. split; [exact Wt|]. rewrite Vt, Vs, Vq. reflexivity.
    - exact I.
    - rewrite Ec. cbn [obind]. rewrite Ea. cbn [obind rg_key r]. replace (p_eval nc p_new y) with (0 : F) in Va by (rewrite eval_ok by exact I; symmetry; apply fsum_zero; intros; cbn; ring).
      destruct (feqb x 0) eqn:X.
      + apply feqb_true in X. subst. exists a. split; auto. split; auto. rewrite Va. unfold m_value.
        replace (0 * y) with (0 : F) by ring. rewrite fpow_zero; [ring|]. unfold nc. pose proof nc_pos. lia.
      + destruct (key_x_poly (key * x ^ (nc - 1))) as (kq & Ek & Wk & Vk). change (rk_nc lg) with nc. rewrite Ek. cbn [obind].
        destruct (p_add_eval a kq Wa Wk) as (t & Et & Wt & Vt). exists t. split; [exact Et|]. split; auto.
        rewrite Vt, Vk, Va. unfold m_value. rewrite fpow_mul_base. ring.
  Qed.
  Lemma wy_ok x y P w : length P = (2 ^ k)%nat -> (forall j, (j < 2 ^ k)%nat -> peval P (d_omega d ^ j) = slot x y j) ->
    exists q, reg_wy F lg repr r w y = Some q /\ wf 0 nc q /\ p_eval nc q x = m_value P w x y.
  Proof.
    intros LP V. unfold reg_wy, at_y.
    destruct (cached_ok x y P LP V (poly F) (fun c p coeff acc => obind (ob_sy F c y p) (fun tmp => p_add (rk_nc lg) acc (p_scale coeff tmp)))
                (wf 0 nc) (fun a => p_eval nc a x)) with (w := w) (init := p_new : poly F) as (cache & a & Ec & Ea & Wa & Va).
    - intros c s coeff acc O W. destruct (O x y) as (_ & _ & (q & E & Wq & Vq)). rewrite E. cbn [obind]. fold nc in Wq, Vq.
      destruct (p_scale_eval coeff q x Wq) as [Ws Vs]. destruct (p_add_eval acc _ W Ws) as (t & Et & Wt & Vt). exists t.
      split; [exact Et|]. split; [exact Wt|]. rewrite Vt, Vs, Vq. reflexivity.
    - exact I.
    - rewrite Ec. cbn [obind]. rewrite Ea. cbn [obind rg_key r]. replace (p_eval nc p_new x) with (0 : F) in Va by (rewrite eval_ok by exact I; symmetry; apply fsum_zero; intros; cbn; ring).
      destruct (feqb y 0) eqn:X.
      + apply feqb_true in X. subst. exists a. split; auto. split; auto. rewrite Va. unfold m_value.
        replace (x * 0) with (0 : F) by ring. rewrite fpow_zero; [ring|]. unfold nc. pose proof nc_pos. lia.
      + destruct (key_y_poly (key * y ^ (nc - 1))) as (kq & Ek & Wk & Vk). change (rk_nc lg) with nc. change (rk_n lg) with (2 ^ lg)%nat. rewrite Ek. cbn [obind].
        destruct (p_add_eval a kq Wa Wk) as (t & Et & Wt & Vt). exists t. split; [exact Et|]. split; auto.
        rewrite Vt, Vk, Va. unfold m_value. rewrite fpow_mul_base. ring.
  Qed.

  Lemma xy_fill_ok x y cs' : forall ss' i coeffs, Forall2 (obj_is lg) cs' ss' -> (i + length cs' <= 2 ^ k)%nat -> (2 ^ k <= length coeffs)%nat ->
    exists L, xy_fill F d x y i cs' (map (fun c => floor_plan (ob_segs F c)) cs') coeffs = Some L /\ length L = length coeffs /\
      (forall j, (2 ^ k <= j)%nat -> nth j L 0 = nth j coeffs 0) /\
      (forall j, (j < 2 ^ k)%nat -> nth j L 0 =
         if (i <=? bitrev j k)%nat then match nth_error ss' (bitrev j k - i) with Some s => s x y | None => nth j coeffs 0 end else nth j coeffs 0).
  Proof.
    assert (NU : forall (l : list F) i v j, (i < length l)%nat -> nth j (upd l i v) 0 = if Nat.eqb j i then v else nth j l 0).
    { intros l i v j Hi. pose proof (nth_error_upd F l i v j) as E. destruct (Nat.eqb_spec j i) as [->|N].
      - destruct (nth_error l i) eqn:El; [|apply nth_error_None in El; lia].
        apply nth_error_nth. rewrite E. rewrite ?Nat.eqb_refl. destruct (Nat.ltb_spec i (length l)); [reflexivity|lia].
      - destruct (Nat.lt_ge_cases j (length l)) as [L|L].
        + apply nth_error_nth. rewrite E. rewrite ?(proj2 (Nat.eqb_neq _ _) N). rewrite ?(proj2 (Nat.eqb_neq i j)) by auto. now apply nth_error_nth'.
        + rewrite !nth_overflow; auto. now rewrite upd_length. }
    induction cs' as [|c cs' IH]; intros ss' i coeffs Hf Hi Hc; inversion Hf as [|c1 s cs1 ss1 O Hf']; subst.
    - exists coeffs. cbn [xy_fill map]. split; auto. split; auto. split; auto. intros j J.
      destruct (i <=? bitrev j k)%nat; auto. destruct (bitrev j k - i)%nat; auto.
    - cbn [xy_fill map length] in *. destruct (O x y) as (E & _). rewrite E. cbn [obind]. rewrite (do_log _ _ _ _ D).
      pose proof (bitrev_lt i k ltac:(lia)) as B. destruct (Nat.ltb_spec (bitrev i k) (length coeffs)); [|lia].
      destruct (IH ss1 (S i) (upd coeffs (bitrev i k) (s x y)) Hf') as (L & EL & LL & H1 & H2); [lia|now rewrite upd_length|].
      exists L. split; auto. rewrite upd_length in LL. split; auto. split.
      + intros j J. rewrite H1, NU by lia. destruct (Nat.eqb_spec j (bitrev i k)); [lia|reflexivity].
      + intros j J. rewrite H2, NU by lia. destruct (Nat.eqb_spec j (bitrev i k)) as [->|N].
        * rewrite bitrev_invol by lia. destruct (Nat.leb_spec (S i) i); [lia|]. destruct (Nat.leb_spec i i); [|lia]. now rewrite Nat.sub_diag.
        * assert (bitrev j k <> i) by (intros <-; apply N; rewrite bitrev_invol; lia).
          destruct (Nat.leb_spec (S i) (bitrev j k)), (Nat.leb_spec i (bitrev j k)); try lia; auto.
          replace (bitrev j k - i)%nat with (S (bitrev j k - S i)) by lia. reflexivity.
  Qed.
  Lemma xy_ok x y P : d_ifft threads d (map (slot x y) (seq 0 (2 ^ k))) = Some P -> length P = (2 ^ k)%nat ->
    exists q, reg_xy F threads lg r x y = Some q /\ wf 0 nc q /\
      (forall w, p_eval nc q w = m_value P w x y) /\
      forall j, coeff_at q j = nth j P 0 + (if Nat.eqb j 0 then key * (x * y) ^ (nc - 1) else 0).
  Proof.
    intros EP LP. unfold reg_xy. cbn [rg_domain rg_circuits rg_plans r]. change (rk_nc lg) with nc. pose proof nc_dom as ND.
    destruct (xy_fill_ok x y cs ss 0 (repeat 0 nc) objs) as (L & EL & LL & H1 & H2); [cbn; lia|now rewrite repeat_length|].
    fold plans in EL. rewrite EL. cbn [obind]. rewrite (do_n _ _ _ _ D). rewrite repeat_length in LL.
    destruct (Nat.leb_spec (2 ^ k) nc); [|lia].
    assert (EF : firstn (2 ^ k) L = map (slot x y) (seq 0 (2 ^ k))).
    { apply (nth_ext _ _ 0 0); [rewrite firstn_length, map_length, seq_length; lia|]. intros j J. rewrite firstn_length in J.
      rewrite nth_firstn_lt by lia. rewrite (nth_indep (map _ _) 0 (slot x y 0)) by (rewrite map_length, seq_length; lia).
      rewrite map_nth, seq_nth by lia. rewrite H2 by lia. cbn [Nat.add]. unfold slot. rewrite Nat.sub_0_r. cbn [Nat.leb].
      destruct (nth_error ss (bitrev j k)); auto. apply nth_repeat. }
    rewrite EF, EP. cbn [obind]. rewrite key_sxy_ok.
    assert (P0 : (0 < 2 ^ k)%nat) by (pose proof (Nat.pow_nonzero 2 k); lia).
    destruct P as [|c0 P']; [cbn in LP; lia|]. cbn [app].
    set (kv := key * (x * y) ^ (nc - 1)).
    assert (SZ : forall j, nth j (skipn (2 ^ k) L) 0 = 0).
    { intros j. rewrite nth_skipn_add. rewrite H1 by lia. apply nth_repeat. }
    destruct (from_coeffs_ok F nc (c0 + kv :: P' ++ skipn (2 ^ k) L)) as (q & E & W & C & _).
    { cbn [length] in *. rewrite app_length, skipn_length, LL. lia. }
    assert (CQ : forall j, coeff_at q j = nth j (c0 :: P') 0 + (if Nat.eqb j 0 then kv else 0)).
    { intros j. rewrite C. destruct j as [|j]; cbn [nth Nat.eqb]; [reflexivity|].
      destruct (Nat.lt_ge_cases j (length P')).
      - rewrite app_nth1 by auto. ring.
      - rewrite app_nth2 by auto. rewrite SZ. rewrite nth_overflow by auto. ring. }
    exists q. split; [exact E|]. split; [exact W|]. split; [|exact CQ].
    intros w. rewrite eval_ok by auto. rewrite (fsum_ext F _ _ (fun j => nth j (c0 :: P') 0 * w ^ j + (if Nat.eqb j 0 then 1 else 0) * kv * w ^ j)).
    2:{ intros j _. rewrite CQ. destruct (Nat.eqb j 0); ring. }
    rewrite fsum_add. unfold m_value. fold kv. rewrite (peval_nth_ge F (c0 :: P') nc) by lia. f_equal.
    rewrite (fsum_single F nc 0).
    - cbn. ring.
    - lia.
    - intros j _ N. apply Nat.eqb_neq in N. rewrite N. ring.
  Qed.
End Restrict.
