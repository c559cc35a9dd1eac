From Coq Require Import List Arith PArith NArith ZArith Bool Lia Ring Field.
From Verif Require Import FieldDef ArithModel ArithSpec.
Import ListNotations.

Section CoeffP.
  Variable F : Field.
  Add Field FFa : (f_theory F).
  Open Scope f_scope.

  Lemma c_mul_ok (c d : Coeff F) : c_value (c_mul c d) = c_value c * c_value d.
  Proof. destruct c, d; cbn [c_mul c_value dbl]; unfold dbl; ring. Qed.

  Lemma c_add_ok (c d : Coeff F) : c_value (c_add c d) = c_value c + c_value d.
  Proof. destruct c, d; cbn [c_add c_value]; unfold dbl; ring. Qed.

  Lemma opp_zero (x : F) : - x = 0 <-> x = 0.
  Proof.
    split; intros H; [|subst; ring].
    transitivity (- - x); [ring|rewrite H; ring].
  Qed.

  Lemma c_is_zero_ok (c : Coeff F) : (two : F) <> 0 ->
    (c_is_zero c = true <-> c_value c = 0).
  Proof.
    intros H2. destruct c; cbn [c_is_zero c_value].
    - tauto.
    - split; [discriminate|]. intros E. destruct (f1_neq_0 F E).
    - split; [discriminate|]. intros E. destruct (H2 E).
    - split; [discriminate|]. intros E. destruct (f1_neq_0 F (proj1 (opp_zero _) E)).
    - apply feqb_true.
    - rewrite feqb_true. symmetry. apply opp_zero.
  Qed.
End CoeffP.

Section LinP.
  Variable F : Field.
  Add Field FFb : (f_theory F).
  Open Scope f_scope.

  Section Gen.
    Variables (W L : Type).
    Variable add_term : L -> W -> Coeff F -> L.
    Variable gain : L -> Coeff F -> L.
    Variable value : L -> F.
    Variable lgain : L -> F.
    Variable wv : W -> F.
    Hypothesis Hterm : forall l w c,
      value (add_term l w c) = value l + c_value c * lgain l * wv w
      /\ lgain (add_term l w c) = lgain l.
    Hypothesis Hgain : forall l c,
      value (gain l c) = value l /\ lgain (gain l c) = lgain l * c_value c.

    Lemma lin_step_ok l op :
      value (lin_step add_term gain l op) = value l + lgain l * call_sum wv op
      /\ lgain (lin_step add_term gain l op)
         = lgain l * (match op with LGain c => c_value c | _ => 1 end).
    Proof.
      destruct op as [w c|c|w|w|ts]; cbn [lin_step call_sum].
      - destruct (Hterm l w c) as [-> ->]. split; ring.
      - destruct (Hgain l c) as [-> ->]. split; ring.
      - destruct (Hterm l w COne) as [-> ->]. cbn [c_value]. split; ring.
      - destruct (Hterm l w CNegOne) as [-> ->]. cbn [c_value]. split; ring.
      - revert l. induction ts as [|[w c] ts IH]; intros l; cbn [fold_left map].
        + unfold lsum; cbn. split; ring.
        + destruct (IH (add_term l w c)) as [E1 E2]. cbn [fst snd] in *.
          rewrite E1, E2. destruct (Hterm l w c) as [-> ->].
          unfold lsum; cbn [fold_right fst snd]. split; ring.
    Qed.

    Lemma lin_run_ok ops : forall l,
      value (lin_run add_term gain ops l) = value l + lgain l * lin_spec wv ops
      /\ lgain (lin_run add_term gain ops l) = lgain l * gains ops.
    Proof.
      induction ops as [|op ops IH]; intros l.
      - unfold lin_run, lin_spec, gains; cbn. split; ring.
      - change (lin_run add_term gain (op :: ops) l)
          with (lin_run add_term gain ops (lin_step add_term gain l op)).
        destruct (IH (lin_step add_term gain l op)) as [E1 E2].
        destruct (lin_step_ok l op) as [S1 S2].
        rewrite E1, E2, S1, S2. split.
        + unfold lin_spec at 2. cbn [length]. rewrite fsum_S_first.
          cbn [firstn nth_error].
          replace (gains (@nil (lcall F W))) with (1 : F) by reflexivity.
          rewrite (fsum_ext F (length ops) _
            (fun i => (match op with LGain c => c_value c | _ => 1 end) *
               (gains (firstn i ops) *
                match nth_error ops i with Some o => call_sum wv o | None => 0 end))).
          * rewrite fsum_scale. fold (lin_spec wv ops). ring.
          * intros i _. unfold gains. cbn [map]. unfold lprod. cbn [fold_right]. ring.
        + unfold gains. cbn [map]. unfold lprod. cbn [fold_right]. ring.
    Qed.
  End Gen.

  Lemma direct_sum_ok (ops : list (lcall F F)) :
    ds_value (lin_run ds_add_term ds_do_gain ops ds_default) = lin_spec (fun w => w) ops.
  Proof.
    destruct (lin_run_ok F (dsum F) ds_add_term ds_do_gain ds_value
                (fun l => c_value (ds_gain l)) (fun w => w)) with (ops := ops) (l := @ds_default F)
      as [E _].
    - intros [v g] w c. cbn [ds_value ds_gain ds_add_term]. split; [|reflexivity].
      transitivity (v + w * c_value (c_mul c g)).
      + destruct (c_mul c g); cbn [c_value]; unfold dbl; ring.
      + rewrite c_mul_ok. ring.
    - intros [v g] c. cbn. split; [reflexivity|apply c_mul_ok].
    - rewrite E. cbn. ring.
  Qed.

  Lemma wire_eval_sum_ok (one : F) (ops : list (lcall F (wire_eval F))) :
    we_value (lin_run we_add_term we_do_gain ops (we_new one))
    = lin_spec (fun w => match w with WEValue v => v | WEOne => one end) ops.
  Proof.
    set (wv := fun w => match w with WEValue v => v | WEOne => one end).
    assert (G : forall ops l, we_one l = one ->
      we_value (lin_run we_add_term we_do_gain ops l)
      = we_value l + c_value (we_gain l) * lin_spec wv ops).
    { clear ops. intros ops l Hl.
      (* restrict to states with we_one = one by projecting *)
      pose (P := fun l : wesum F => mk_wesum F (we_value l) one (we_gain l)).
      destruct (lin_run_ok (wire_eval F) (wesum F)
        (fun l w c => we_add_term (P l) w c) (fun l c => we_do_gain (P l) c)
        we_value (fun l => c_value (we_gain l)) wv) with (ops := ops) (l := l) as [E _].
      - intros [v o g] w c. cbn. split; [|reflexivity]. rewrite c_mul_ok. unfold wv.
        destruct w; ring.
      - intros [v o g] c. cbn. split; [reflexivity|apply c_mul_ok].
      - rewrite <- E. clear E. revert l Hl.
        assert (St : forall op l, we_one l = one ->
          lin_step we_add_term we_do_gain l op
          = lin_step (fun l w c => we_add_term (P l) w c) (fun l c => we_do_gain (P l) c) l op
          /\ we_one (lin_step we_add_term we_do_gain l op) = one).
        { assert (T : forall l w c, we_one l = one ->
            we_add_term l w c = we_add_term (P l) w c /\ we_one (we_add_term l w c) = one).
          { intros [v o g] w c H. cbn in H. subst o. split; reflexivity. }
          intros op l H. destruct op as [w c|c|w|w|ts]; cbn [lin_step]; auto.
          - destruct l as [v o g]. cbn in H. subst o. split; reflexivity.
          - revert l H. induction ts as [|[w c] ts IH]; intros l H; cbn [fold_left]; [auto|].
            destruct (T l w c H) as [E1 E2]. destruct (IH _ E2) as [E3 E4]. cbn [fst snd] in *.
            rewrite <- E1. split; [|exact E4]. exact E3. }
        induction ops as [|op ops IH]; intros l Hl; [reflexivity|].
        unfold lin_run. cbn [fold_left]. destruct (St op l Hl) as [E1 E2].
        rewrite <- E1. apply (IH _ E2). }
    rewrite (G ops (we_new one) eq_refl). cbn. ring.
  Qed.
End LinP.

Section UtilP.
  Variable F : Field.
  Add Field FFc : (f_theory F).
  Open Scope f_scope.

  Lemma eval_peval (p : list F) x : eval p x = peval p x.
  Proof.
    unfold eval. rewrite <- fold_left_rev_right, rev_involutive.
    induction p as [|c p IH]; cbn [fold_right peval]; [reflexivity|rewrite IH; ring].
  Qed.

  Lemma eval_ok (p : list F) x :
    eval p x = fsum (length p) (fun i => nth i p 0 * x ^ i).
  Proof. rewrite eval_peval. apply peval_fsum. Qed.

  Lemma fold_left_fadd (l : list F) a : fold_left fadd l a = a + lsum l.
  Proof.
    revert a. induction l as [|b l IH]; intros a; cbn [fold_left]; [unfold lsum; cbn; ring|].
    rewrite IH. unfold lsum. cbn [fold_right]. ring.
  Qed.

  Lemma dot_ok (a b : list F) : length a = length b ->
    dot a b = Some (fsum (length a) (fun i => nth i a 0 * nth i b 0)).
  Proof.
    intros H. unfold dot. rewrite H, Nat.eqb_refl, fold_left_fadd. f_equal.
    rewrite <- H. clear -F.
    transitivity (lsum (map (fun p => fst p * snd p) (combine a b))); [ring|].
    revert b. induction a as [|x a IH]; intros b; cbn [combine map length].
    - reflexivity.
    - rewrite fsum_S_first. cbn [nth]. destruct b as [|y b]; cbn [map].
      + unfold lsum; cbn. rewrite fsum_zero; [ring|]. intros i _. cbn. ring.
      + unfold lsum; cbn [fold_right fst snd]. fold (lsum (map (fun p => fst p * snd p) (combine a b))).
        rewrite IH. reflexivity.
  Qed.

  Lemma dot_err (a b : list F) : length a <> length b -> dot a b = None.
  Proof. intros H. unfold dot. apply Nat.eqb_neq in H. rewrite H. reflexivity. Qed.

  (** factor *)
  Lemma nth_pdiv (p : list F) b i : (S i < length p)%nat ->
    nth i (pdiv F p b) 0 = peval (skipn (S i) p) b.
  Proof.
    revert i. induction p as [|c p IH]; intros i H; [simpl in H; lia|].
    destruct p as [|d p]; [simpl in H; lia|].
    change (pdiv F (c :: d :: p) b) with (peval (d :: p) b :: pdiv F (d :: p) b).
    destruct i as [|i]; [reflexivity|]. cbn [nth]. rewrite IH by (cbn [length] in *; lia).
    reflexivity.
  Qed.

  Lemma firstn_S_nth (l : list F) n : (n < length l)%nat ->
    firstn (S n) l = firstn n l ++ [nth n l 0].
  Proof.
    revert l. induction n as [|n IH]; intros [|a l] H; cbn [length] in H; try lia; [reflexivity|].
    cbn [firstn nth app]. rewrite <- IH by lia. reflexivity.
  Qed.

  Lemma factor_go_spec (b : F) (pre s : list F) :
    rev (factor_go (- b) (- (b * peval s b)) (rev pre))
    = firstn (length pre - 1) (pdiv F (pre ++ s) b).
  Proof.
    revert s. induction pre as [|d pre IH] using rev_ind; intros s; [reflexivity|].
    rewrite rev_app_distr. cbn [rev app].
    destruct (length pre) as [|k] eqn:Hk.
    - destruct pre; [|discriminate]. reflexivity.
    - assert (Hne : rev pre <> []).
      { intros E. apply (f_equal (@length F)) in E. rewrite rev_length in E. simpl in E. lia. }
      assert (Hgo : forall nb t l, l <> [] -> factor_go nb t (d :: l)
                = (d - t) :: factor_go nb ((d - t) * nb) l)
        by (intros nb t [|? ?] Hl; [congruence|reflexivity]).
      rewrite Hgo by exact Hne. cbn [rev].
      replace ((d - - (b * peval s b)) * - b) with (- (b * peval (d :: s) b)) by (cbn [peval]; ring).
      rewrite IH. rewrite app_length. cbn [length]. rewrite Hk.
      replace (S k + 1 - 1)%nat with (S k) by lia. replace (S k - 1)%nat with k by lia.
      rewrite <- app_assoc. cbn [app].
      rewrite firstn_S_nth by (rewrite pdiv_length, app_length; cbn [length]; lia).
      rewrite nth_pdiv by (rewrite app_length; cbn [length]; lia).
      rewrite <- Hk, skipn_app, Nat.sub_diag, skipn_all. cbn [app skipn peval].
      f_equal. f_equal. ring.
  Qed.

  Lemma factor_pdiv (p : list F) b : p <> [] -> factor p b = Some (pdiv F p b).
  Proof.
    intros H. unfold factor, factor_iter. destruct p as [|c p]; [congruence|].
    f_equal. pose proof (factor_go_spec b (c :: p) []) as E.
    cbn [peval] in E. replace (- (b * 0)) with (0 : F) in E by ring.
    rewrite E, app_nil_r. apply firstn_all2. rewrite pdiv_length. lia.
  Qed.

  Lemma factor_ok (p : list F) b : p <> [] ->
    exists q, factor p b = Some q /\ factor_iter p b = Some (rev q) /\
      S (length q) = length p /\
      forall x, peval p x = peval q x * (x - b) + peval p b.
  Proof.
    intros H. exists (pdiv F p b). split; [apply factor_pdiv; exact H|]. split; [|split].
    - pose proof (factor_pdiv p b H) as E. unfold factor in E.
      destruct (factor_iter p b) as [r|]; [|discriminate]. injection E as <-.
      rewrite rev_involutive. reflexivity.
    - rewrite pdiv_length. destruct p; [congruence|]. simpl. lia.
    - intros x. apply pdiv_spec.
  Qed.

  (** geosum *)
  Lemma geo_sq (r : F) n : fsum (2 * n) (fun i => r ^ i) = (1 + r) * fsum n (fun i => (sqr r) ^ i).
  Proof.
    rewrite fsum_even_odd.
    rewrite (fsum_ext F n (fun i => r ^ (2 * i)) (fun i => sqr r ^ i)).
    - rewrite (fsum_ext F n (fun i => r ^ (2 * i + 1)) (fun i => r * sqr r ^ i)).
      + rewrite (fsum_scale F n r (fun i => sqr r ^ i)). ring.
      + intros i _. rewrite fpow_add, fpow_mul. cbn [fpow]. unfold sqr.
        replace (r * (r * 1)) with (r * r) by ring. ring.
    - intros i _. rewrite fpow_mul. cbn [fpow]. unfold sqr.
      replace (r * (r * 1)) with (r * r) by ring. reflexivity.
  Qed.

  Lemma geo_loop_ok m : forall (r : F) block sum step,
    geo_loop r block sum step m
    = sum + step * block * fsum (Pos.to_nat m) (fun i => r ^ i).
  Proof.
    induction m as [m IH|m IH|]; intros r block sum step; cbn [geo_loop].
    - rewrite IH, Pos2Nat.inj_xI.
      rewrite fsum_S_first. cbn [fpow].
      rewrite (fsum_scale F (2 * Pos.to_nat m) r (fun i => r ^ i)), geo_sq. ring.
    - rewrite IH, Pos2Nat.inj_xO, geo_sq. ring.
    - change (Pos.to_nat 1) with 1%nat. cbn [fsum fpow]. ring.
  Qed.

  Lemma geosum_ok (r : F) (m : N) : geosum r m = fsum (N.to_nat m) (fun i => r ^ i).
  Proof.
    destruct m as [|p]; [reflexivity|]. cbn [geosum N.to_nat]. rewrite geo_loop_ok. ring.
  Qed.
End UtilP.

(** coefficientwise form of the division identity *)
Section FactorCoeff.
  Variable F : Field.
  Add Field FFfc : (f_theory F).
  Open Scope f_scope.

  Lemma peval_skipn_S (p : list F) b i : (i < length p)%nat ->
    peval (skipn i p) b = nth i p 0 + b * peval (skipn (S i) p) b.
  Proof.
    revert i. induction p as [|c p IH]; intros i H; [cbn in H; lia|].
    destruct i as [|i]; [reflexivity|]. cbn [length] in H. cbn [nth].
    change (skipn (S i) (c :: p)) with (skipn i p). change (skipn (S (S i)) (c :: p)) with (skipn (S i) p).
    apply IH. lia.
  Qed.

  Lemma nth_map_seq0 (f : nat -> F) n i : (i < n)%nat -> nth i (map f (seq 0 n)) 0 = f i.
  Proof.
    intros H. rewrite (nth_indep _ 0 (f 0%nat)) by (rewrite map_length, seq_length; exact H).
    rewrite map_nth, seq_nth by exact H. reflexivity.
  Qed.

  Lemma factor_coeffs (p q : list F) b : factor p b = Some q ->
    length p = S (length q) /\
    forall i, (i < length p)%nat ->
      nth i p 0 = nth i (mul_linear b q) 0 + (match i with O => peval p b | _ => 0 end).
  Proof.
    intros H. assert (Hp : p <> []).
    { intros ->. discriminate. }
    pose proof (factor_pdiv F p b Hp) as E. rewrite E in H. injection H as <-.
    assert (L : length p = S (length (pdiv F p b))) by (rewrite pdiv_length; destruct p; cbn; [congruence|lia]).
    split; [exact L|]. intros i Hi.
    unfold mul_linear. rewrite nth_map_seq0 by lia.
    assert (Q : forall j, nth j (pdiv F p b) 0 = peval (skipn (S j) p) b).
    { intros j. destruct (Nat.lt_ge_cases (S j) (length p)) as [Lt|Ge].
      - apply nth_pdiv. exact Lt.
      - rewrite nth_overflow by lia. rewrite skipn_all2 by exact Ge. reflexivity. }
    destruct i as [|i].
    - rewrite Q. pose proof (peval_skipn_S p b 0 Hi) as P.
      change (skipn 0 p) with p in P. rewrite P. ring.
    - rewrite !Q. rewrite (peval_skipn_S p b (S i) Hi). ring.
  Qed.
End FactorCoeff.
