(** The prover's step: the transcript, and the step as a whole. *)
From Coq Require Import List Arith NArith Bool Lia Permutation Ring Field.
From Verif Require Import FieldDef ModDef ArithModel ArithSpec ArithProofs FFTModel FFTProofs SparseModel SparseSpec SparseProofs SparseProofs2 GadgetModel GadgetSpec PointSpec EndoSpec EscModel
  FoldModel FoldSpec FoldProofs2 FoldProofs3 Props_Fold SpongeModel SpongeSpec SpongeProofs ClaimModel StageModel RegModel RegSpec RegProofs RegProofs2 Props_Reg PcdModel PcdSpec PcdProofs2 QvModel AppModel
  RecModel RecSpec RecStageModel RecStageSpec RecProofs3 RecProofs5 Props_Rec Props_Qv Props_Qv2 CompileModel VerifyModel VerifySpec VerifyProofs VerifyProofs2 FuseModel FuseSpec FuseProofs FuseProofs2.
Import ListNotations.
Local Open Scope nat_scope.

(** ** transcript *)
Section Transcript.
  Variable F : Field.
  Variables (Fs : Field) (P : pparams F).
  Hypothesis WP : wf_params P.
  Local Notation rate := (pp_RATE P).
  Local Notation pi := (poseidon P).
  Lemma absorb_inv d (b : bridge F Fs) d' : tr_absorb F Fs P d b = Some d' ->
    exists xy, br_commitment b = Some xy /\ d' = d_absorb rate pi (d_absorb rate pi d (fst xy)) (snd xy).
  Proof. unfold tr_absorb. destruct (br_commitment b) as [[x y]|]; [|discriminate]. intros E. injection E as <-. exists (x, y). auto. Qed.
  Lemma squeeze_inv d r : tr_squeeze F P d = Some r -> d_squeeze rate pi d = inr (fst r, snd r).
  Proof. unfold tr_squeeze. destruct (d_squeeze rate pi d) as [e|[a b]]; [discriminate|]. intros E. injection E as <-. reflexivity. Qed.
  Lemma save_inv d v : tr_save F P d = Some v -> exists d', d_save_resume pi d = inr d' /\ d_vec d' = v.
  Proof. unfold tr_save. destruct (d_save_resume pi d) as [e|d']; [discriminate|]. intros E. injection E as <-. eauto. Qed.

  (** the state keeps its length *)
  Definition sized (d : duplex F) : Prop := length (d_vec d) = pp_T P /\ d_pos d <= rate.
  Lemma sized_new : sized (d_new (pp_T P)).
  Proof. split; [apply repeat_length|apply Nat.le_0_l]. Qed.
  Lemma sized_absorb d x : sized d -> sized (d_absorb rate pi d x).
  Proof.
    intros (L & Q). pose proof (rate_ok F P WP) as R. pose proof (poseidon_length F P (d_vec d) WP L) as Lp.
    unfold d_absorb. destruct (d_squeezing d); [|destruct (Nat.eqb_spec (d_pos d) rate)]; unfold sized, d_put, d_permute; cbn [d_vec d_pos]; rewrite add_at_length by lia; lia.
  Qed.
  Lemma sized_squeeze d v d' : sized d -> d_squeeze rate pi d = inr (v, d') -> sized d'.
  Proof.
    intros (L & Q) E. pose proof (rate_ok F P WP) as R. pose proof (poseidon_length F P (d_vec d) WP L) as Lp. unfold d_squeeze, d_get, d_permute in E.
    destruct (d_squeezing d); [destruct (Nat.eqb_spec (d_pos d) rate)|destruct (Nat.eqb (d_pos d) 0)]; inversion E; subst; unfold sized; cbn [d_vec d_pos]; lia.
  Qed.
  Lemma sized_save d d' : sized d -> d_save_resume pi d = inr d' -> length (d_vec d') = pp_T P.
  Proof.
    intros (L & Q) E. unfold d_save_resume in E. destruct (d_squeezing d); [discriminate|]. destruct (Nat.eqb (d_pos d) 0); [discriminate|]. injection E as <-.
    now apply poseidon_length.
  Qed.
  Lemma sized_absorbs vs : forall d, sized d -> sized (fold_left (d_absorb rate pi) vs d).
  Proof. induction vs as [|v vs IH]; intros d S; [exact S|]. apply IH. now apply sized_absorb. Qed.
End Transcript.

Tactic Notation "st" ident(E) ident(x) ident(Ex) := match type of E with ebind _ ?o _ = _ => destruct o as [x|] eqn:Ex; [cbn [ebind] in E|discriminate E] end.

Section Core.
  Variables (F Fs : Field) (H : FMod F) (Hs : FMod Fs).
  Add Field FFu4 : (f_theory F).
  Open Scope f_scope.
  Variables (aff : H -> option (Fs * Fs)) (aff' : Hs -> option (F * F)).
  Variables (T : TwoAdic F) (lg : nat) (repr : F -> N) (native : registry F).
  Variables (gens : list H) (gens' : list Hs).
  Variables (cb : F) (hs M N' : nat) (P : pparams F) (of_u : BinNums.N -> F) (tag : list BinNums.N)
    (nbits : nat) (gen : F) (fsqrt : F -> option F) (zeta : F).
  Variables (hash : list N -> list N) (to_bytes : F -> list N) (from_uniform : list N -> F) (f_of_u64 : N -> F).
  Variables (b : builder F) (ss : list (F -> F -> F)).
  Local Notation n := (2 ^ lg)%nat.
  Local Notation NC := (4 * 2 ^ lg)%nat.
  Local Notation log2 := (Nat.log2_up (length ss)).
  Hypothesis S32 : (ta_S T <= 32)%nat.
  Hypothesis Fin : finalize F T lg repr hash to_bytes from_uniform f_of_u64 b = Some native.
  Hypothesis Obj : Forall2 (obj_is lg) (rb_internal F b ++ rb_bonding F b ++ rb_steps F b ++ rb_app F b) ss.
  Hypothesis Inj : forall a a' : F, a ^ (2 ^ log2) = 1 -> a' ^ (2 ^ log2) = 1 -> omega_key F repr a = omega_key F repr a' -> a = a'.
  Hypothesis L13 : (13 <= length ss)%nat.
  Hypothesis WP : wf_params P.
  Hypotheses (HM : (0 < M)%nat) (H22 : (22 <= M * N')%nat) (Hg : (NC <= length gens)%nat).
  Hypotheses (SS : forall v s, fsqrt v = Some s -> s * s = v) (SN : forall v, fsqrt v = None -> ~ square v) (GO : forall v, square v \/ square (gen * v)).
  Hypothesis Ev : Nat.even nbits = true.
  Hypothesis Haff : forall c xy, aff' c = Some xy -> on_curve cb xy.

  Lemma order_is' : rb_internal F b ++ rb_bonding F b ++ rb_steps F b ++ rb_app F b = reg_order b.
  Proof. reflexivity. Qed.
  Lemma log2_is : log2_circuits F b = log2.
  Proof. pose proof (forall2_length _ _ _ Obj) as LE. unfold log2_circuits. rewrite <- LE. f_equal. symmetry. apply order_length. Qed.
  Lemma root_one i : (i < length ss)%nat -> omega_j T (N.of_nat i) ^ (2 ^ log2) = 1.
  Proof.
    intros Hi. destruct (finalize_inv F T repr lg hash to_bytes from_uniform f_of_u64 b native Fin) as (_ & d & Ed & _ & _). rewrite log2_is in Ed.
    destruct (domain_new_inv F T _ d Ed) as [K D].
    assert (L : (i < 2 ^ log2)%nat) by (eapply Nat.lt_le_trans; [exact Hi|]; apply Nat.log2_up_spec; lia).
    rewrite (omega_j_dom F T S32 log2 d i D K L). apply (pow_dom F T log2 d D).
  Qed.
  Definition sy_at (y : F) (i : nat) : poly F := match circuit_y F T lg repr native (N.of_nat i) y with Some q => q | None => [] end.
  Lemma sy_ok y i : (i < length ss)%nat -> circuit_y F T lg repr native (N.of_nat i) y = Some (sy_at y i) /\ wf 0 NC (sy_at y i).
  Proof.
    intros Hi. pose proof (C21_registry F T 1 lg repr hash to_bytes from_uniform f_of_u64 b native ss S32 ltac:(lia) Fin Obj Inj 0 y) as R. cbv zeta in R.
    destruct R as (Q & _ & _ & Rm & _). destruct (Rm (omega_j T (N.of_nat i))) as (_ & _ & (q & E & W & _) & _). unfold sy_at, circuit_y. rewrite E. auto.
  Qed.
  Lemma reg_wf : (forall w x q, reg_wx F lg repr native w x = Some q -> wf 0 NC q) /\ (forall w y q, reg_wy F lg repr native w y = Some q -> wf 0 NC q) /\
    (forall x y q, reg_xy F 1 lg native x y = Some q -> wf 0 NC q).
  Proof.
    pose proof (C21_registry F T 1 lg repr hash to_bytes from_uniform f_of_u64 b native ss S32 ltac:(lia) Fin Obj Inj) as R. cbv zeta in R.
    split; [|split]; intros a c q E.
    - destruct (R c 0) as (Q & _ & _ & Rm & _). destruct (Rm a) as (_ & (q' & E' & W & _) & _). congruence.
    - destruct (R 0 c) as (Q & _ & _ & Rm & _). destruct (Rm a) as (_ & _ & (q' & E' & W & _) & _). congruence.
    - destruct (R a c) as (Q & _ & _ & Rm & _). destruct (Rm 0) as (_ & _ & _ & (q' & E' & W & _)). congruence.
  Qed.
  Lemma bridge_point parents v bl pts br : bridge_commit F Fs H Hs aff aff' lg gens' parents v bl pts = Some br -> forall xy, br_commitment br = Some xy -> on_curve cb xy.
  Proof.
    unfold bridge_commit. destruct (opt_all aff pts); [|discriminate]. cbn [obind]. destruct (stage_rx _ _ _ _ _); [|discriminate]. cbn [obind].
    destruct (p_commit _ _ _); [|discriminate]. intros E xy. injection E as <-. apply Haff.
  Qed.
  Lemma commit_inv p r : commit_rx F H lg gens p = Some r -> fst r = p /\ p_commit NC gens p = Some (snd r).
  Proof. unfold commit_rx. change (rk_nc lg) with NC. destruct (p_commit NC gens p); [|discriminate]. intros E. injection E as <-. auto. Qed.

  Variables (l r : fproof F Fs H) (ul ur : uvals F) (ol or : list F) (bl : blinds F Fs).
  Local Notation lp := (fp_proof l).
  Local Notation rp := (fp_proof r).
  Local Notation L := (shown T lp ul ol).
  Local Notation Rr := (shown T rp ur or).
  Hypotheses (Vl : valid lg native gens cb hs (length ss) l ul) (Vr : valid lg native gens cb hs (length ss) r ur).
  Hypotheses (Lol : length ol = hs) (Lor : length or = hs).
  Variable R : frun F Fs H.
  Hypothesis Run : fuse_core F Fs H Hs aff aff' T lg repr native gens gens' cb hs M N' P of_u tag nbits gen fsqrt zeta l r ol or bl = inr R.

  Theorem core : ~ degenerate T l r R -> is_base L Rr \/ (sound T lg repr native (length ss) l ul ol /\ sound T lg repr native (length ss) r ur or) ->
    exists u, stepped T lg native gens cb hs M N' P of_u tag log2 nbits gen zeta bl L Rr R u.
  Proof.
    intros Deg Chi. unfold degenerate in Deg. pose proof Run as E. unfold fuse_core in E.
    st E prew E1. st E prerx E2. st E pre E3. cbv zeta in E. st E bpre E4. st E d1 E5. st E wd E6. cbv zeta in E.
    st E wx0p E7. st E wx1p E8. st E wx0 E9. st E wx1 E10. st E bsp E11. st E d2 E12. st E yd E13. cbv zeta in E. st E zd E14. cbv zeta in E.
    st E claims E15. cbv zeta in E. st E ie E16. st E ierx E17. st E wyp E18. st E wy E19. st E ies E20. st E bie E21. st E d3 E22.
    st E sponge E23. st E mud E24. cbv zeta in E. st E nud E25. cbv zeta in E. destruct (feqb (fst mud) 0) eqn:Emu; [discriminate E|].
    st E a1 E26. st E b1 E27. st E em E28. st E oet E29. cbv zeta in E. st E oerx E30. st E oes E31. st E boe E32. st E d4 E33.
    st E mu'd E34. cbv zeta in E. st E nu'd E35. cbv zeta in E. destruct (feqb (fst mu'd) 0) eqn:Emu'; [discriminate E|].
    st E at_ E36. st E bp E37. st E bb E38. cbv zeta in E. st E bab E39. st E d5 E40. st E xd E41. cbv zeta in E.
    st E xyp E42. st E xy E43. cbv zeta in E. st E qrx E44. st E qs E45. st E bq E46. st E d6 E47. st E ald E48. cbv zeta in E.
    st E fp E49. st E f E50. st E bf E51. st E d7 E52. st E ud E53. cbv zeta in E. st E erx E54. st E es E55. st E be E56. st E d8 E57. st E pbd E58. cbv zeta in E.
    st E endo E59. cbv zeta in E. st E pcv E60. st E pw E61. st E esc E62. st E pxy E63. st E pts E64.
    match type of E with inr ?x = inr ?y => assert (ER : x = y) by congruence end. clear E Run. subst R.
    cbn [fr_chal] in Deg.
    apply absorb_inv in E5, E12, E22, E33, E40, E47, E52, E57.
    destruct E5 as (p1 & B1 & ->), E12 as (p2 & B2 & ->), E22 as (p3 & B3 & ->), E33 as (p4 & B4 & ->), E40 as (p5 & B5 & ->), E47 as (p6 & B6 & ->), E52 as (p7 & B7 & ->), E57 as (p8 & B8 & ->).
    apply squeeze_inv in E6, E13, E14, E24, E25, E34, E35, E41, E48, E53, E58.
    destruct (save_inv F P _ _ E23) as (ds & ES & Eds).
    apply commit_inv in E3, E9, E10, E19, E20, E31, E38, E43, E45, E50, E55.
    change (rk_nc lg) with NC in *. change (rk_n lg) with n in *.
    set (u := mk_uvals (fun p => match p with PPreamble => p1 | PSPrime => p2 | PInnerError => p3 | POuterError => p4 | PAB => p5 | PQuery => p6 | PF => p7 | PEval => p8 end)
                (fun e => match e with Uw => fst wd | Uy => fst yd | Uz => fst zd | Umu => fst mud | Unu => fst nud | Umu' => fst mu'd | Unu' => fst nu'd
                          | Uc => p_revdot NC (fst at_) (fst bb) | Ux => fst xd | Ualpha => fst ald | Uu => fst ud | Upre_beta => fst pbd | Uv => snd pcv end)).
    assert (Hmu : fst mud <> 0) by (intros K; rewrite K in Emu; rewrite (proj2 (feqb_true F 0 0) eq_refl) in Emu; discriminate).
    assert (Hmu' : fst mu'd <> 0) by (intros K; rewrite K in Emu'; rewrite (proj2 (feqb_true F 0 0) eq_refl) in Emu'; discriminate).
    exists u.
    pose proof (vd_published Vl) as Pl. pose proof (vd_published Vr) as Pr.
    pose proof (vd_left Vl) as Ll1. pose proof (vd_right Vl) as Ll2.
    pose proof (vd_left Vr) as Lr1. pose proof (vd_right Vr) as Lr2.
    destruct reg_wf as (Wwx & Wwy & Wxy).
    (* the preamble *)
    rewrite (preamble_values_ok F Fs H cb hs T lp rp ul ur ol or Ll1 Ll2 Lol Lr1 Lr2 Lor Pl Pr) in E1. injection E1 as <-.
    (* the folded claims *)
    set (y := fst yd) in *. set (z := fst zd) in *. set (mu := fst mud) in *. set (nu := fst nud) in *. set (mu' := fst mu'd) in *. set (nu' := fst nu'd) in *.
    assert (Cl : uv_el ul Uc = pf_c lp) by apply Pl. assert (Cr : uv_el ur Uc = pf_c rp) by apply Pr.
    pose proof (vd_id Vl) as Il. pose proof (vd_id Vr) as Ir.
    assert (HN : (0 < N')%nat) by (destruct N'; lia).
    assert (Hget : forall k, p_commit NC gens (two_src F (native_rx lp) (native_rx rp) k) = Some (fuse_get F Fs H l r k)).
    { intros [[] c]; unfold two_src, fuse_get; cbn [fst snd]; [apply (vd_commit Vr)|apply (vd_commit Vl)]. }
    destruct (folded F n z (fun i => circuit_y F T lg repr native (N.of_nat i) y) (sy_at y) ltac:(intros i Hi; apply sy_ok; lia)
      (native_rx lp) (native_rx rp) (N.to_nat (pf_circuit_id lp)) (N.to_nat (pf_circuit_id rp))
      (proj1 (vd_wf Vl)) (proj1 (vd_wf Vr)) (sy_ok y _ Il) (sy_ok y _ Ir) (pf_c lp) (pf_c rp) (child_k L y) (child_k Rr y)
      H gens (fuse_get F Fs H l r) M N' HM HN H22 Hg Hget claims ie mu nu mu' nu' a1 b1 oet at_ bp E15 E16 Hmu E26 E27 E29 Hmu' E36 E37)
      as (FF & FA1 & FB1 & FA & WA & WB & CA & Lie & Sie & Loe & Fold).
    rewrite (outer_emulated_ok F Fs H cb hs T lp rp ul ur ol or Ll1 Ll2 Lol Lr1 Lr2 Lor Pl Pr M y mu nu ie Hmu Sie), Cl, Cr in E28.
    injection E28 as <-. cbn [fst snd] in *.
    (* the transcript *)
    assert (T1 : transcript_1 P (tag_values F of_u tag) u sponge).
    { exists ds. split; [|exact Eds]. unfold ops_1, t_pt. rewrite <- !app_assoc, d_run_absorbs. cbn [app d_run u uv_pt]. fold (tr_new F P of_u tag).
      change (d_absorbs F P (tag_values F of_u tag) (d_new (pp_T P))) with (tr_new F P of_u tag).
      rewrite E6, E13, E14, ES. reflexivity. }
    assert (Ts : sized F P ds \/ length sponge = pp_T P).
    { right. rewrite <- Eds. eapply sized_save; [exact WP| |exact ES].
      assert (Z1 : sized F P (snd wd)) by (eapply sized_squeeze; [exact WP| |exact E6]; do 2 (apply sized_absorb; [exact WP|]); apply sized_absorbs; [exact WP|apply sized_new]).
      assert (Z2 : sized F P (snd yd)) by (eapply sized_squeeze; [exact WP| |exact E13]; do 2 (apply sized_absorb; [exact WP|]); auto).
      assert (Z3 : sized F P (snd zd)) by (eapply sized_squeeze; [exact WP| |exact E14]; auto).
      do 2 (apply sized_absorb; [exact WP|]); auto. }
    assert (Lsp : length sponge = pp_T P) by (destruct Ts as [Ts|Ts]; [rewrite <- Eds; apply Ts|exact Ts]). clear Ts.
    assert (Tr : transcript P (tag_values F of_u tag) u).
    { eexists. unfold ops_1, ops_2, t_pt. rewrite <- !app_assoc, d_run_absorbs. cbn [app d_run u uv_pt].
      change (d_absorbs F P (tag_values F of_u tag) (d_new (pp_T P))) with (tr_new F P of_u tag).
      rewrite E6, E13, E14, E24, E25, E34, E35, E41, E48, E53, E58. reflexivity. }
    (* v *)
    destruct (extract_ok F gen fsqrt zeta nbits Ev SS SN GO (fst pbd)) as (ve & Ee & _ & Bt). rewrite E59 in Ee. injection Ee as <-.
    match type of E60 with compute_p _ _ _ _ _ ?x = _ => set (ps := x) in * end.
    destruct Pl as (Pl0 & Pl1 & Pl2 & Pl3 & Pl4 & Pl5 & Pl6 & Pl7 & Pl8 & Pl9 & Pl10 & Pl11 & Pl12 & Pl13).
    destruct Pr as (Pr0 & Pr1 & Pr2 & Pr3 & Pr4 & Pr5 & Pr6 & Pr7 & Pr8 & Pr9 & Pr10 & Pr11 & Pr12 & Pr13).
    assert (Dl : dn_left (open_points (internal_omega T) L Rr u) = child_denoms F Fs H T l).
    { unfold open_points, child_denoms. cbn [dn_left pv_uni pv_cid shown]. congruence. }
    assert (Dr : dn_right (open_points (internal_omega T) L Rr u) = child_denoms F Fs H T r).
    { unfold open_points, child_denoms. cbn [dn_right pv_uni pv_cid shown]. congruence. }
    assert (Op : open_points (internal_omega T) L Rr u = mk_denoms (child_denoms F Fs H T l) (child_denoms F Fs H T r) (fst wd) (fst xd) y (fst xd * z) (internal_omega T)).
    { rewrite <- Dl, <- Dr. reflexivity. }
    assert (Hom : forall id, internal_omega T id = omega_j T (N.of_nat (internal_index id))) by (intros id; unfold internal_omega; now rewrite index_internal).
    assert (Q2N : forall c : N, omega_j T c = omega_j T (N.of_nat (N.to_nat c))) by (intros c; now rewrite N2Nat.id).
    destruct (C38_step_coeffs F T 1 lg repr hash to_bytes from_uniform f_of_u64 b native ss (sy_at y) H gens cb M N' nbits gen zeta (internal_omega T) L Rr u ps
      (lift_native F zeta nbits endo) (N.to_nat (pf_circuit_id lp)) (N.to_nat (pf_circuit_id rp)) (map (plain F) claims) (map fst a1) b1)
      as (f0' & cf & p' & c' & C1 & C2 & C3 & C4 & C5 & C6).
    all: try assumption; try lia.
    { apply Q2N. }
    { apply Q2N. }
    { cbn [shown pv_uni u uv_el ps eo_map eo_wx0]. rewrite Pl9, (proj1 E9). exact E7. }
    { cbn [shown pv_uni u uv_el ps eo_map eo_wx1]. rewrite Pr9, (proj1 E10). exact E8. }
    { cbn [u uv_el ps eo_map eo_wy]. rewrite (proj1 E19). exact E18. }
    { cbn [u uv_el ps eo_map eo_xy]. rewrite (proj1 E43). exact E42. }
    { cbn [shown pv_uni ps eo_map eo_left child_polys ce_map ce_xy fst]. rewrite Pl9, Pl2. apply (vd_registry Vl). }
    { cbn [shown pv_uni ps eo_map eo_right child_polys ce_map ce_xy fst]. rewrite Pr9, Pr2. apply (vd_registry Vr). }
    { intros i Hi. apply sy_ok. exact Hi. }
    { cbn [u uv_el ps eo_map eo_b]. rewrite (proj1 E38). exact E37. }
    { apply Forall_forall. intros q Hq. 
      assert (A : (exists c, q = (native_rx lp c, fp_cm l c)) \/ (exists c, q = (native_rx rp c, fp_cm r c)) \/
                  q = (pf_registry_xy lp, fp_xy_cm l) \/ q = (pf_registry_xy rp, fp_xy_cm r) \/ q = (pf_p lp, pf_p_commitment lp) \/ q = (pf_p rp, pf_p_commitment rp) \/
                  q = wx0 \/ q = wx1 \/ q = wy \/ q = (fst at_, resolve fold_key_eqb (fuse_get F Fs H l r) (snd at_)) \/ q = bb \/ q = xy).
      { revert Hq. unfold eval_write, ceval_write, ps. cbn [map app rxid_all eo_left eo_right eo_wx0 eo_wx1 eo_wy eo_a eo_b eo_xy child_polys ce_rx ce_a ce_b ce_xy ce_p In].
        clear. intros Hq. repeat (destruct Hq as [<-|Hq]; [solve [tauto|left; eauto|left; exists AbA; reflexivity|left; exists AbB; reflexivity|right; left; eauto|right; left; exists AbA; reflexivity|right; left; exists AbB; reflexivity]|]). destruct Hq. }
      destruct A as [[c ->]|[[c ->]|[->|[->|[->|[->|[->|[->|[->|[->|[->| ->]]]]]]]]]]]; cbn [fst snd].
      - split; [apply (vd_wf Vl)|apply (vd_commit Vl)].
      - split; [apply (vd_wf Vr)|apply (vd_commit Vr)].
      - split; [apply (vd_wf Vl)|apply (vd_commit_xy Vl)].
      - split; [apply (vd_wf Vr)|apply (vd_commit_xy Vr)].
      - split; [apply (vd_wf Vl)|apply (vd_commit_p Vl)].
      - split; [apply (vd_wf Vr)|apply (vd_commit_p Vr)].
      - destruct E9 as [-> E9]. split; [eapply Wwx; exact E7|exact E9].
      - destruct E10 as [-> E10]. split; [eapply Wwx; exact E8|exact E10].
      - destruct E19 as [-> E19]. split; [eapply Wwy; exact E18|exact E19].
      - split; [exact WA|exact CA].
      - destruct E38 as [-> E38]. split; [exact WB|exact E38].
      - destruct E43 as [-> E43]. split; [eapply Wxy; exact E42|exact E43]. }
    { cbn [shown pv_uni ps eo_map eo_left child_polys ce_map ce_p fst]. rewrite Pl11, Pl13. symmetry. apply (vd_eval Vl). }
    { cbn [shown pv_uni ps eo_map eo_right child_polys ce_map ce_p fst]. rewrite Pr11, Pr13. symmetry. apply (vd_eval Vr). }
    { apply (vd_points Vl). }
    { apply (vd_points Vr). }
    { intros K. apply Deg. left. exact K. }
    { intros K. apply Deg. right. left. exact K. }
    { rewrite Op. intros K. apply Deg. right. right. exact K. }
    change (ev_fst ps) with (eo_map fst ps) in *.
    rewrite Dl, Dr in C1, C6. cbn [u uv_el] in C1, C3, C6. fold y z in C1, C6.
    assert (fp = f0') by congruence. subst fp. destruct E50 as [F1 F2]. assert (F3 : f = (f0', cf)) by (destruct f as [f1 f2]; cbn [fst snd] in F1, F2; congruence).
    change NUM_ENDOSCALING_POINTS with 37%nat in E60. rewrite F3, C3 in E60. injection E60 as E60. 
    assert (Q1 : fst pcv = (p', c')) by (rewrite <- E60; reflexivity). assert (Q2 : snd pcv = p_eval NC p' (fst ud)) by (rewrite <- E60; reflexivity).
    destruct E3 as [K3 E3], E20 as [K20 E20], E31 as [K31 E31], E38 as [K38 E38], E43 as [K43 E43], E45 as [K45 E45], E55 as [K55 E55].
    constructor; cbn [fr_pre fr_ie fr_oe fr_query fr_eval fr_ps fr_c fr_p fr_v fr_bridge fr_chal fr_errors fr_outer fr_queries fr_evals ov_sponge].
    - repeat split. intros []; assumption.
    - exact T1.
    - constructor; cbn [ov_left ov_right].
      + intros pt. destruct pt; cbn [u uv_pt].
        * exact (bridge_point _ _ _ _ _ E4 _ B1).
        * exact (bridge_point _ _ _ _ _ E11 _ B2).
        * exact (bridge_point _ _ _ _ _ E21 _ B3).
        * exact (bridge_point _ _ _ _ _ E32 _ B4).
        * exact (bridge_point _ _ _ _ _ E39 _ B5).
        * exact (bridge_point _ _ _ _ _ E46 _ B6).
        * exact (bridge_point _ _ _ _ _ E51 _ B7).
        * exact (bridge_point _ _ _ _ _ E56 _ B8).
      + cbn [shown pv_cid]. rewrite Q2N. now apply root_one.
      + cbn [shown pv_cid]. rewrite Q2N. now apply root_one.
      + reflexivity.
      + reflexivity.
      + exact Tr.
      + split; [exact Hmu|]. intros i Hi. cbn [ov_collapsed]. rewrite nth_map_seqg by exact Hi. unfold ky_of. cbn [shown pv_uni ov_left ov_right u uv_el]. rewrite Cl, Cr. reflexivity.
      + split; [exact Hmu'|]. destruct Chi as [B|[Sl Sr]]; [left; exact B|right]. cbn [ov_errs ov_collapsed u uv_el]. rewrite K38. symmetry. apply Fold.
        specialize (Sl y (sy_at y) ltac:(intros i Hi; apply (sy_ok y i Hi))). specialize (Sr y (sy_at y) ltac:(intros i Hi; apply (sy_ok y i Hi))).
        apply (two_hold F n z (sy_at y) (native_rx lp) (native_rx rp)); [exact (proj1 Sl z)|exact (proj1 Sr z)|exact (proj2 Sl)|exact (proj2 Sr)].
      + apply C6. exact Q2.
    - split; [exact Loe|]. split; [|exact Lsp]. cbn [ov_collapsed]. now rewrite map_length, seq_length.
    - split; assumption.
    - rewrite K3. exact E2.
    - rewrite K31. exact E30.
    - rewrite K20. exact E17.
    - rewrite K45. exact E44.
    - rewrite K55. exact E54.
    - rewrite <- ?K3 in E3. repeat (apply Forall_cons || apply Forall_nil); congruence.
    - assert (WX : wf 0 NC xyp) by (eapply Wxy; exact E42).
      repeat (apply Forall_cons || apply Forall_nil); unfold committed; cbn [eo_a eo_b eo_xy ps fst snd]; rewrite ?K38, ?K43, ?Q1; auto.
    - cbn [eo_a eo_b ps fst]. symmetry. apply SparseProofs.revdot_ok; [exact WA|rewrite K38; exact WB].
    - rewrite Q1, Q2. symmetry. now apply SparseProofs.eval_ok.
    - cbn [eo_xy ps]. rewrite K43. exact E42.
  Qed.
End Core.
