(** Forked runs of a step: what one value of x gives. *)
From Coq Require Import List Arith NArith Bool Lia Ring Field.
From Verif Require Import FieldDef ModDef ArithModel SparseModel SparseSpec SparseProofs SparseProofs2 FoldModel FoldSpec FoldProofs2 FoldProofs3 TModel TProofs ClaimModel
  PcdModel PcdSpec PcdProofs PcdProofs2 Props_Fold Props_Pcd RecModel RecSpec QvModel QvProofs QvProofs2 Props_Rec Props_Qv Props_Qv2 VerifySpec AccSpec.
Import ListNotations.
Open Scope f_scope.
Local Open Scope nat_scope.

Section Many.
  Variable F : Field.
  Add Field FFu19 : (f_theory F).
  Lemma many_ex (k : nat) (P : F -> Prop) : 0 < k -> many k P -> exists a, P a.
  Proof. intros Hk ([|a l] & _ & L & H); [cbn in L; lia|]. exists a. apply H. now left. Qed.
  Lemma many_impl (k : nat) (P Q : F -> Prop) : (forall a, P a -> Q a) -> many k P -> many k Q.
  Proof. intros I (l & N & L & H). exists l. auto. Qed.
  Lemma many_le (k k' : nat) (P : F -> Prop) : k' <= k -> many k P -> many k' P.
  Proof. intros I (l & N & L & H). exists l. repeat split; auto. lia. Qed.
  Lemma eval_same (NC : nat) (p q : poly F) t : wf 0 NC p -> wf 0 NC q -> (forall k, coeff_at p k = coeff_at q k) -> p_eval NC p t = p_eval NC q t.
  Proof. intros Wp Wq E. rewrite !(SparseProofs.eval_ok F NC) by assumption. apply fsum_ext. intros k _. now rewrite E. Qed.
  (** two polynomials that agree often are equal *)
  Lemma many_poly (NC : nat) (p q : poly F) : wf 0 NC p -> wf 0 NC q -> many NC (fun t => p_eval NC p t = p_eval NC q t) -> forall k, coeff_at p k = coeff_at q k.
  Proof.
    intros Wp Wq (ts & Nd & L & H) k. destruct (Nat.lt_ge_cases k NC) as [Hk|Hk].
    - pose proof (coeffs_zero F NC (fun e => (coeff_at p e - coeff_at q e)%F) ts Nd L) as Z. cbv beta in Z.
      assert (X : (coeff_at p k - coeff_at q k)%F = f0).
      { apply Z; [|exact Hk]. intros t It. specialize (H t It). rewrite !(SparseProofs.eval_ok F NC) in H by assumption.
        rewrite (fsum_ext F NC _ (fun k => coeff_at p k * fpow t k + (- f1) * (coeff_at q k * fpow t k))%F) by (intros; ring).
        rewrite fsum_add, fsum_scale, H. ring. }
      replace (coeff_at p k) with ((coeff_at p k - coeff_at q k) + coeff_at q k)%F by ring. rewrite X. ring.
    - now rewrite (SparseProofs.coeff_high F _ _ _ k Wp Hk), (SparseProofs.coeff_high F _ _ _ k Wq Hk).
  Qed.
  Lemma many_eval (NC : nat) (p : poly F) (f : F -> F) : wf 0 NC p -> poly_in NC f -> many NC (fun t => p_eval NC p t = f t) -> forall t, p_eval NC p t = f t.
  Proof.
    intros Wp (q & Wq & Eq) H t. rewrite <- Eq. apply eval_same; auto. apply (many_poly NC); auto.
    revert H. apply many_impl. intros a Ha. now rewrite Eq.
  Qed.
  (** scaling the points *)
  Lemma many_scale (k : nat) (z : F) (P : F -> Prop) : z <> f0 -> many k (fun x => P (fmul x z)) -> many k P.
  Proof.
    intros Hz (l & Nd & L & H). exists (map (fun x => fmul x z) l). split; [|split].
    - apply FinFun.Injective_map_NoDup; [|exact Nd]. intros a b E. assert (X : (a * z * finv z = b * z * finv z)%F) by now rewrite E.
      transitivity (a * z * finv z)%F; [field; exact Hz|]. rewrite X. field. exact Hz.
    - now rewrite map_length.
    - intros a Ha. apply in_map_iff in Ha. destruct Ha as (b & <- & Hb). auto.
  Qed.
End Many.

Section Acc.
  Variables (F : Field) (lg log2 M N : nat) (cb : F) (nbits : nat) (gen zeta : F) (om : nat -> F).
  Add Field FFu20 : (f_theory F).
  Local Notation n := (2 ^ lg).
  Local Notation NC := (4 * 2 ^ lg).
  Variables (l r : pvals F) (pl pr : ceval (poly F)).
  Local Notation omega := (fun id => om (internal_index id)).
  Definition cden (c : pvals F) : cdenoms F := mk_cdenoms (uv_el (pv_uni c) Uu) (uv_el (pv_uni c) Uy) (uv_el (pv_uni c) Ux) (pv_cid c).
  (** an instance with the challenges up to x *)
  Definition u0 (w y z mu nu mu' nu' x : F) : uvals F :=
    mk_uvals (fun _ => (f0, f0)) (fun e => match e with Uw => w | Uy => y | Uz => z | Umu => mu | Unu => nu | Umu' => mu' | Unu' => nu' | Ux => x | _ => f0 end).

  Hypothesis Wl : Forall (wf 0 NC) (ceval_write pl).
  Hypothesis Wr : Forall (wf 0 NC) (ceval_write pr).
  Hypothesis NB : ~ is_base l r.

  Lemma eval_write_wf wx0 wx1 wy A B xy : wf 0 NC wx0 -> wf 0 NC wx1 -> wf 0 NC wy -> wf 0 NC A -> wf 0 NC B -> wf 0 NC xy ->
    Forall (wf 0 NC) (eval_write (mk_evalout pl pr wx0 wx1 wy A B xy)).
  Proof.
    intros. unfold eval_write. cbn [eo_left eo_right eo_wx0 eo_wx1 eo_wy eo_a eo_b eo_xy]. rewrite !Forall_app. split; [exact Wl|]. split; [exact Wr|]. repeat constructor; auto.
  Qed.

  Section X.
  Variables (w y z : F) (wx0 wx1 wy : poly F) (ie : list (list F)) (mu nu : F) (oe : ovals F) (mu' nu' : F) (A B : poly F) (x : F) (q : queryout F) (xy : poly F).
  Hypothesis W0 : wf 0 NC wx0. Hypothesis W1 : wf 0 NC wx1. Hypothesis Wy : wf 0 NC wy.
  Hypothesis WA : wf 0 NC A. Hypothesis WB : wf 0 NC B. Hypothesis Wxy : wf 0 NC xy.
  Hypothesis Lie : length ie = N.
  Hypothesis Loe : length (ov_collapsed oe) = N.
  Local Notation run := (run_ok lg log2 M N cb nbits gen zeta om l r pl pr w y z wx0 wx1 wy ie mu nu oe mu' nu' A B x q xy).
  Local Notation ps := (mk_evalout pl pr wx0 wx1 wy A B xy).
  Local Notation U0 := (u0 w y z mu nu mu' nu' x).
  Local Notation d := (mk_denoms (cden l) (cden r) w x y (fmul x z) omega).
  Hypothesis H : many 55 (fun al => exists f, wf 0 NC f /\ many (NC + 55) (fun u => exists e, many 37 (fun be => run al f u e be))).

  (** what one accepting run says *)
  Lemma run_facts al f u e be : wf 0 NC f -> run al f u e be ->
    (z <> f0 /\ mu <> f0 /\ mu' <> f0 /\
     rdot NC A B = weigh N (finv mu') (fmul mu' nu') (entry N (ov_errs oe) (collapsed M N mu nu ie
       (map (ky_values (two_ky f0 (uv_el (pv_uni l) Uc) (uv_el (pv_uni r) Uc) (child_k l y) (child_k r y))) (seq 0 (N * M)))))) /\
    ~ In u (points_of d) /\
    hfold 37 be (fun i => nth i (map (fun p => p_eval NC p u) (f :: eval_write ps)) f0)
    = hfold 37 be (fun i => nth i (fold_quotients al u (poly_queries e q (uv_el (pv_uni l) Uv) (uv_el (pv_uni r) Uv) d
        (fst (axbx n M N q U0)) (snd (axbx n M N q U0))) :: eval_write e) f0).
  Proof.
    intros Wf (U & EU & Hb & _ & _ & K1 & K2 & IC & OC & CV & DC & p & Wp & Cp & Ev). cbn [map] in EU.
    injection EU as Ew Ey Ez Emu Enu Emu' Enu' Ex Eal Eu.
    destruct (C47_chain F M N l r oe ie U Lie Loe NB IC OC) as (M0 & M1 & EC). rewrite Emu in M0. rewrite Emu' in M1.
    destruct CV as (_ & _ & Hx & Hz & _ & _ & Hp & b & Ib & V). pose proof (Hb b Ib) as ->. cbv zeta in V.
    assert (ED : open_points omega l r U = d) by (unfold open_points, cden; now rewrite Ew, Ex, Ey, Ez).
    assert (EA : axbx n M N q U = axbx n M N q U0) by (unfold axbx, u0; cbn [uv_el]; now rewrite Ez, Emu, Emu', Ex, Enu, Enu').
    rewrite ED in Hp, V. rewrite Eu in Hp, V. rewrite Eal, EA in V. split; [|split].
    - rewrite Ez in Hz. split; [exact Hz|]. split; [exact M0|]. split; [exact M1|]. rewrite DC, EC, Emu, Emu', Enu, Enu'.
      unfold ky_of. rewrite K1, K2. reflexivity.
    - exact Hp.
    - change (length (_ :: eval_write e)) with 37 in V. rewrite <- V, <- Ev. symmetry.
      assert (W : forall i, i < 37 -> wf 0 NC (nth i (f :: eval_write ps) [])).
      { intros [|i] Hi; cbn [nth]; [exact Wf|]. assert (X := eval_write_wf wx0 wx1 wy A B xy W0 W1 Wy WA WB Wxy). rewrite Forall_forall in X. apply X, nth_In.
        change (length (eval_write ps)) with 36. lia. }
      rewrite (eval_comb F NC 37 be u (fun i => nth i (f :: eval_write ps) []) p Wp W Cp).
      unfold hfold. apply fsum_ext. intros i Hi. f_equal. rewrite <- (map_nth (fun p => p_eval NC p u)). apply nth_indep. rewrite map_length. exact Hi.
  Qed.

  Lemma nc_pos : 0 < NC.
  Proof. pose proof (Nat.pow_nonzero 2 lg). lia. Qed.

  Lemma at_x :
    (z <> f0 /\ mu <> f0 /\ mu' <> f0 /\
     rdot NC A B = weigh N (finv mu') (fmul mu' nu') (entry N (ov_errs oe) (collapsed M N mu nu ie
       (map (ky_values (two_ky f0 (uv_el (pv_uni l) Uc) (uv_el (pv_uni r) Uc) (child_k l y) (child_k r y))) (seq 0 (N * M)))))) /\
    p_eval NC (ce_p pl) (uv_el (pv_uni l) Uu) = uv_el (pv_uni l) Uv /\ p_eval NC (ce_p pr) (uv_el (pv_uni r) Uu) = uv_el (pv_uni r) Uv /\
    registry_consistent NC ps (cden l) (cden r) w y x /\
    (p_eval NC A (fmul x z), p_eval NC B x) = axbx n M N (native_query NC ps (cden l) (cden r) w y z x omega) U0.
  Proof.
    assert (E0 : z <> f0 /\ mu <> f0 /\ mu' <> f0 /\
     rdot NC A B = weigh N (finv mu') (fmul mu' nu') (entry N (ov_errs oe) (collapsed M N mu nu ie
       (map (ky_values (two_ky f0 (uv_el (pv_uni l) Uc) (uv_el (pv_uni r) Uc) (child_k l y) (child_k r y))) (seq 0 (N * M)))))).
    { destruct (many_ex F 55 _ ltac:(lia) H) as (al & f & Wf & H1). destruct (many_ex F (NC + 55) _ ltac:(lia) H1) as (u & e & H2).
      destruct (many_ex F 37 _ ltac:(lia) H2) as (be & H3). exact (proj1 (run_facts al f u e be Wf H3)). }
    split; [exact E0|]. destruct H as (als & Nd & La & Ha).
    pose proof (C38_sound F NC ps q (cden l) (cden r) w y z x (uv_el (pv_uni l) Uv) (uv_el (pv_uni r) Uv) (fst (axbx n M N q U0)) (snd (axbx n M N q U0)) omega als
      nc_pos (eval_write_wf wx0 wx1 wy A B xy W0 W1 Wy WA WB Wxy) Nd La) as S. cbv zeta in S.
    destruct S as (Vl & Vr & RC & EA & EB & Q1 & Q2 & (L1 & L2 & L3 & L4) & (R1 & R2 & R3 & R4)).
    - intros al Ial. destruct (Ha al Ial) as (f & Wf & us & Nu & Lu & Hu). exists f, us. split; [exact Wf|]. split; [exact Nu|]. split; [exact Lu|].
      intros u Iu. destruct (Hu u Iu) as (e & bs & Nb & Lb & Hb). split.
      + destruct bs as [|be bs]; [cbn in Lb; lia|]. exact (proj1 (proj2 (run_facts al f u e be Wf (Hb be (or_introl eq_refl))))).
      + exists e, bs. split; [exact Nb|]. split; [exact Lb|]. intros be Ib. exact (proj2 (proj2 (run_facts al f u e be Wf (Hb be Ib)))).
    - split; [exact Vl|]. split; [exact Vr|]. split; [exact RC|]. cbn [eo_a eo_b] in EA, EB. rewrite EA, EB, <- surjective_pairing.
      unfold native_query, child_query, axbx. cbn [eo_left eo_right eo_xy eo_wy] in *.
      assert (EC : build_claims (eval_source q) = build_claims (eval_source (native_query NC ps (cden l) (cden r) w y z x omega))).
      { unfold eval_source, build_claims, two_source, native_query, child_query.
        cbn [s_rx s_app qo_left qo_right cq_rx cq_a cq_b cq_xy_cid combine map app fst snd flat_map icid_all eo_left eo_right eo_xy eo_wy].
        rewrite L2, L3, L4, R2, R3, R4, !L1, !R1. reflexivity. }
      rewrite EC. f_equal. f_equal. apply map_ext. intros c. unfold native_query. destruct c; cbn [ev_b qo_fixed eo_xy]; rewrite ?Q1; reflexivity.
  Qed.
  End X.
End Acc.
