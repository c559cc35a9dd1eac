(** The prover's step: it stops only at a point at infinity or at a zero to invert. *)
From Coq Require Import List Arith NArith Bool Lia Permutation Ring Field.
From Verif Require ParProofs.
From Verif Require Import FieldDef ModDef ArithModel ArithSpec ArithProofs FFTModel FFTProofs SparseModel SparseSpec SparseProofs SparseProofs2 GadgetModel GadgetSpec PointSpec EndoSpec EscModel
  FoldModel FoldSpec FoldProofs2 FoldProofs3 Props_Fold FoldProofs SpongeModel SpongeSpec SpongeProofs ClaimModel StageModel StageProofs2 RegModel RegSpec RegProofs RegProofs2 Props_Reg PcdModel PcdSpec PcdProofs PcdProofs2 Props_Pcd QvModel AppModel
  RecModel RecSpec RecStageModel RecStageSpec RecStageProofs RecProofs3 RecProofs5 Props_Esc Props_Rec Props_Qv Props_Qv2 CompileModel VerifyModel VerifySpec VerifyProofs VerifyProofs2 FuseModel FuseSpec FuseProofs FuseProofs2 FuseProofs3.
Import ListNotations.
Local Open Scope nat_scope.

Definition good {A : Type} (x : fault + A) : Prop := match x with inl Misfit => False | _ => True end.
Lemma good_bind {A B : Type} t (o : option A) (k : A -> fault + B) : t <> Misfit -> (forall a, o = Some a -> good (k a)) -> good (ebind t o k).
Proof. intros Ht Hk. unfold ebind. destruct o; [now apply Hk|]. destruct t; [exact I..|congruence]. Qed.
Lemma good_some {A B : Type} t (o : option A) (k : A -> fault + B) : (exists a, o = Some a) -> (forall a, o = Some a -> good (k a)) -> good (ebind t o k).
Proof. intros (a & ->) Hk. now apply Hk. Qed.

(** ** the sponge *)
Section Sponge.
  Variables (F Fs : Field) (P : pparams F).
  Local Notation rate := (pp_RATE P).
  Local Notation pi := (poseidon P).
  Definition pending (d : duplex F) : Prop := d_squeezing d = false /\ d_pos d <> 0.
  Lemma absorb_pending d x : pending (d_absorb rate pi d x).
  Proof. unfold d_absorb. destruct (d_squeezing d) eqn:Q; [|destruct (Nat.eqb (d_pos d) rate)]; unfold pending, d_put, d_permute; cbn [d_squeezing d_pos]; auto. Qed.
  Lemma tr_pending d (b : bridge F Fs) d' : tr_absorb F Fs P d b = Some d' -> pending d'.
  Proof. unfold tr_absorb. destruct (br_commitment b) as [[x y]|]; [|discriminate]. intros E. injection E as <-. apply absorb_pending. Qed.
  Definition ready (d : duplex F) : Prop := pending d \/ d_squeezing d = true.
  Lemma squeeze_some d : ready d -> exists r, tr_squeeze F P d = Some r.
  Proof.
    intros R. unfold tr_squeeze, d_squeeze, d_get. destruct (d_squeezing d) eqn:Q; [destruct (Nat.eqb (d_pos d) rate); eauto|].
    destruct R as [(_ & R)|R]; [|congruence]. destruct (Nat.eqb_spec (d_pos d) 0); [congruence|]. eauto.
  Qed.
  Lemma squeeze_ready d r : tr_squeeze F P d = Some r -> ready (snd r).
  Proof.
    unfold tr_squeeze, d_squeeze, d_get. intros E. right. destruct (d_squeezing d) eqn:Q; [destruct (Nat.eqb (d_pos d) rate)|destruct (Nat.eqb (d_pos d) 0)]; try discriminate E;
      injection E as <-; cbn [snd d_squeezing d_permute]; auto.
  Qed.
  Lemma save_some d : pending d -> exists v, tr_save F P d = Some v.
  Proof. intros (Q & R). unfold tr_save, d_save_resume. rewrite Q. destruct (Nat.eqb_spec (d_pos d) 0); [congruence|]. eauto. Qed.
End Sponge.

(** ** folding *)
Section Fold.
  Variable F : Field.
  Add Field FFu7 : (f_theory F).
  Open Scope f_scope.
  Local Notation poly := (poly F).
  Variables (n : nat) (z : F) (cy : nat -> option poly) (sy : nat -> poly).
  Local Notation NC := (4 * n)%nat.
  Hypothesis Hint : forall i, (i < 13)%nat -> cy i = Some (sy i) /\ wf 0 NC (sy i).
  Variables (fl fr : rxcomp -> poly) (il ir : nat).
  Hypotheses (Wl : forall c, wf 0 NC (fl c)) (Wr : forall c, wf 0 NC (fr c)).
  Hypotheses (Cl : cy il = Some (sy il) /\ wf 0 NC (sy il)) (Cr : cy ir = Some (sy ir) /\ wf 0 NC (sy ir)).
  Variables (M N : nat).
  Hypotheses (HM : (0 < M)%nat) (HN : (0 < N)%nat) (H22 : (22 <= M * N)%nat).
  Local Notation src := (two_source (fun c => ((false, c), fl c)) (fun c => ((true, c), fr c)) il ir).
  Lemma claims_some : exists claims, fb_build n NC z cy src = Some claims.
  Proof.
    set (vs := [mk_pview (fun c => ((false, c), fl c)) il tt tt tt tt; mk_pview (fun c => ((true, c), fr c)) ir tt tt tt tt]).
    destruct (fb_all_ok F n z cy sy Hint fold_key (two_src F fl fr) (build_claims (source_of vs))) as (l & El & H2).
    { apply build_all; [discriminate|]. intros v [<-|[<-|[]]]; (split; [intros c; split; [reflexivity|]|]); cbn [pv_rx pv_app snd]; auto. }
    exists l. exact El.
  Qed.
  Variable claims : list (tracked F fold_key * poly).
  Hypothesis Ec : fb_build n NC z cy src = Some claims.
  Local Notation a := (map fst (map fst claims)).
  Local Notation b := (map snd claims).
  Lemma claims_facts : Forall (tracks F NC fold_key (two_src F fl fr)) (map fst claims) /\ Forall (wf 0 NC) a /\ Forall (wf 0 NC) b /\ length claims = 22%nat.
  Proof.
    destruct (tracked_claims F n z cy sy Hint fl fr il ir Wl Wr Cl Cr claims Ec) as (Tr & F2). split; [exact Tr|].
    pose proof (proj2 (C28_two_proofs _ _ _ tt tt tt fl fr il ir (mk_child_ky tt tt tt) (mk_child_ky tt tt tt))) as L22. pose proof (forall2_len _ _ _ F2) as L. rewrite L22, map_length in L.
    assert (E1 : map fst (map (plain F) claims) = a) by (rewrite !map_map; reflexivity). assert (E2 : map snd (map (plain F) claims) = b) by (rewrite !map_map; reflexivity).
    rewrite <- E1, <- E2. assert (W : Forall (wf 0 NC) (map fst (map (plain F) claims)) /\ Forall (wf 0 NC) (map snd (map (plain F) claims))).
    { clear - F2. induction F2 as [|c ab cs l (Wa & Wb & _) F2 (I1 & I2)]; [split; constructor|]. cbn [map]. split; constructor; auto. }
    destruct W as [W1 W2]. split; [exact W1|]. split; [exact W2|]. symmetry. exact L.
  Qed.
  Let one_nz : (1 : F) <> 0. Proof. apply (F_1_neq_0 (f_theory F)). Qed.
  Lemma errors_some : exists ie, inner_error_terms NC M N a b = Some ie.
  Proof.
    destruct claims_facts as (_ & Wa & Wb & L).
    destruct (C27_compose F NC M N a b [] 1 1 1 1 HM HN ltac:(now rewrite !map_length) ltac:(rewrite !map_length; lia) Wa Wb one_nz one_nz) as (A1 & B1 & A & B & ie & oe & _ & _ & E & _). eauto.
  Qed.
  Lemma inner_some s : (exists a1, fold_inner (tracked_foldable NC) M N (map fst claims) s = Some a1) /\ (exists b1, fold_inner (poly_foldable NC) M N b s = Some b1).
  Proof.
    destruct claims_facts as (Tr & Wa & Wb & L). split.
    - destruct (track_inner F NC fold_key (two_src F fl fr) M N (map fst claims) s HM ltac:(rewrite map_length; lia) Tr) as (rs & E & _). eauto.
    - destruct (two_layers F NC M N a b s s s s HM ltac:(rewrite !map_length; lia) ltac:(rewrite !map_length; lia) Wa Wb) as (A1 & B1 & A & B & _ & E & _). eauto.
  Qed.
  Lemma outer_some s t a1 b1 : fold_inner (tracked_foldable NC) M N (map fst claims) s = Some a1 -> fold_inner (poly_foldable NC) M N b t = Some b1 ->
    (exists oet, outer_error_terms NC N (map fst a1) b1 = Some oet /\ length oet = num_error_terms N) /\ forall s' t', (exists at_, fold_outer (tracked_foldable NC) a1 s' = Some at_) /\
      exists bp, fold_outer (poly_foldable NC) b1 t' = Some bp /\ wf 0 NC bp.
  Proof.
    intros Ea Eb. destruct claims_facts as (Tr & Wa & Wb & L). pose proof (fold_inner_fst F fold_key NC M N _ _ _ Ea) as Fa.
    assert (La : (length a <= M * N)%nat) by (rewrite !map_length; lia). assert (Lb : (length b <= M * N)%nat) by (rewrite !map_length; lia).
    split.
    - destruct (two_layers F NC M N a b s t 0 0 HM La Lb Wa Wb) as (A1 & B1 & _ & _ & Y1 & Y2 & LA & LB & WA & WB & _).
      pose proof (some_eq _ _ _ Fa Y1) as XX; clear Y1; destruct XX. pose proof (some_eq _ _ _ Eb Y2) as XX; clear Y2; destruct XX.
      destruct (errors_ok F NC 1 N (map fst a1) b1 HN ltac:(congruence) ltac:(lia) WA WB) as (es & Eo & Lo & Lo1 & _). destruct es as [|oe es]; [discriminate|].
      exists oe. unfold outer_error_terms. rewrite Eo. split; [reflexivity|]. apply (Lo1 O). lia.
    - intros s' t'. split.
      + destruct (track_inner F NC fold_key (two_src F fl fr) M N (map fst claims) s HM ltac:(rewrite map_length; lia) Tr) as (rs & Er & _ & Trs). pose proof (some_eq _ _ _ Ea Er) as XX; clear Er; destruct XX.
        destruct (track_fold F NC fold_key (two_src F fl fr) a1 s' Trs) as (r & Er & _). eauto.
      + destruct (two_layers F NC M N a b s t s' t' HM La Lb Wa Wb) as (A1 & B1 & A & B & Y1 & Y2 & _ & _ & _ & _ & _ & Y4 & _ & WB & _).
        pose proof (some_eq _ _ _ Eb Y2) as XX; clear Y2; destruct XX. eauto.
  Qed.
End Fold.

Section Total.
  Variables (F Fs : Field) (H : FMod F) (Hs : FMod Fs).
  Add Field FFu8 : (f_theory F).
  Open Scope f_scope.
  Variables (aff : H -> option (Fs * Fs)) (aff' : Hs -> option (F * F)).
  Variables (T : TwoAdic F) (lg : nat) (repr : F -> N) (native : registry F).
  Variables (gens : list H) (gens' : list Hs).
  Variables (cb : F) (hs M N' : nat) (P : pparams F) (of_u : BinNums.N -> F) (tag : list BinNums.N)
    (nbits : nat) (gen : F) (fsqrt : F -> option F) (zeta : F).
  Variables (hash : list N -> list N) (to_bytes : F -> list N) (from_uniform : list N -> F) (f_of_u64 : N -> F).
  Variables (b : builder F) (ss : list (F -> F -> F)).
  Local Notation n := (2 ^ lg)%nat.
  Local Notation NC := (4 * 2 ^ lg)%nat.
  Local Notation log2 := (Nat.log2_up (length ss)).
  Hypothesis S32 : (ta_S T <= 32)%nat.
  Hypothesis Fin : finalize F T lg repr hash to_bytes from_uniform f_of_u64 b = Some native.
  Hypothesis Obj : Forall2 (obj_is lg) (rb_internal F b ++ rb_bonding F b ++ rb_steps F b ++ rb_app F b) ss.
  Hypothesis Inj : forall a a' : F, a ^ (2 ^ log2) = 1 -> a' ^ (2 ^ log2) = 1 -> omega_key F repr a = omega_key F repr a' -> a = a'.
  Hypothesis L13 : (13 <= length ss)%nat.
  Hypothesis WP : wf_params P.
  Hypotheses (HM : (0 < M)%nat) (H22 : (22 <= M * N')%nat) (Hg : (NC <= length gens)%nat) (Hg' : (NC <= length gens')%nat).
  Hypotheses (SS : forall v s, fsqrt v = Some s -> s * s = v) (SN : forall v, fsqrt v = None -> ~ square v) (GO : forall v, square v \/ square (gen * v)).
  Hypothesis Ev : Nat.even nbits = true.
  (* the stages fit *)
  Definition sfits (parents : list nat) (v : nat) : Prop := (skip_gates parents + stage_gates v <= n)%nat.
  Hypothesis Fn : sfits [] (pre_wires hs) /\ sfits [pre_wires hs] (oe_wires N' (pp_T P)) /\ sfits [oe_wires N' (pp_T P); pre_wires hs] (ie_wires M N') /\
    sfits [pre_wires hs] query_wires /\ sfits [query_wires; pre_wires hs] eval_wires.
  Hypothesis Fb : sfits [] 26 /\ sfits [26] 4 /\ sfits [4; 26] 4 /\ sfits [4; 4; 26] 2 /\ sfits [2; 4; 4; 26] 4 /\ sfits [4; 2; 4; 4; 26] 4 /\
    sfits [4; 4; 2; 4; 4; 26] 2 /\ sfits [2; 4; 4; 2; 4; 4; 26] 2.
  Hypothesis Fe : sfits [] nbits /\ sfits [nbits] points_values.

  Lemma stage_some {K : Field} parents v (alpha : K) out : sfits parents v -> (length out <= v)%nat -> exists q, stage_rx n parents v alpha out = Some q.
  Proof.
    intros S L. pose proof (stage_rx_ok K n parents v alpha out) as X. cbv zeta in X. unfold sfits in S. rewrite (proj2 (Nat.leb_le _ _) L), (proj2 (Nat.leb_le _ _) S) in X. cbn [andb] in X.
    destruct X as (q & E & _). eauto.
  Qed.
  Lemma stage_wf' {K : Field} parents v (alpha : K) out q : stage_rx n parents v alpha out = Some q -> wf 0 NC q.
  Proof.
    intros E. pose proof (stage_rx_ok K n parents v alpha out) as X. cbv zeta in X. destruct ((_ <=? _)%nat && _)%bool; [|congruence].
    destruct X as (q' & E' & W & _). congruence.
  Qed.
  Lemma commit_some p : wf 0 NC p -> exists r, commit_rx F H lg gens p = Some r.
  Proof. intros W. unfold commit_rx. change (rk_nc lg) with NC. rewrite (commit_ok F NC H gens p W Hg). cbn. eauto. Qed.
  Lemma xys_length (ps : list (Fs * Fs)) : length (xys Fs ps) = (2 * length ps)%nat.
  Proof. unfold xys. induction ps as [|p ps IH]; [reflexivity|]. cbn [flat_map app length] in *. lia. Qed.
  Lemma opt_all_len {A B : Type} (f : A -> option B) : forall l l', opt_all f l = Some l' -> length l' = length l.
  Proof.
    induction l as [|x l IH]; intros l' E; cbn [opt_all] in E; [injection E as <-; reflexivity|]. destruct (f x); [|discriminate]. destruct (opt_all f l); [|discriminate].
    cbn in E. injection E as <-. cbn. now rewrite (IH _ eq_refl).
  Qed.
  Lemma bridge_good {A : Type} parents v bld pts (k : bridge F Fs -> fault + A) : sfits parents v -> (2 * length pts <= v)%nat ->
    (forall br, bridge_commit F Fs H Hs aff aff' lg gens' parents v bld pts = Some br -> good (k br)) ->
    good (ebind (pts_fault F Fs H aff pts) (bridge_commit F Fs H Hs aff aff' lg gens' parents v bld pts) k).
  Proof.
    intros S L Hk. unfold pts_fault. destruct (opt_all aff pts) as [ps|] eqn:E; [|apply good_bind; [discriminate|exact Hk]].
    apply good_some; [|exact Hk]. unfold bridge_commit. rewrite E. cbn [obind].
    destruct (stage_some parents v bld (xys Fs ps) S ltac:(rewrite xys_length, (opt_all_len _ _ _ E); exact L)) as (q & Eq). change (rk_n lg) with n. rewrite Eq. cbn [obind].
    change (rk_nc lg) with NC. rewrite (commit_ok Fs NC Hs gens' q (stage_wf' _ _ _ _ _ Eq) Hg'). cbn. eauto.
  Qed.
  Lemma sy_some y i : (i < length ss)%nat -> circuit_y F T lg repr native (N.of_nat i) y = Some (sy_at F T lg repr native y i) /\ wf 0 NC (sy_at F T lg repr native y i).
  Proof.
    clear - S32 Fin Obj Inj. intros Hi. pose proof (C21_registry F T 1 lg repr hash to_bytes from_uniform f_of_u64 b native ss S32 (le_n 1) Fin Obj Inj 0 y) as R. cbv zeta in R.
    destruct R as (Q & _ & _ & Rm & _). destruct (Rm (omega_j T (N.of_nat i))) as (_ & _ & (q & E & W & _) & _). unfold sy_at, circuit_y. rewrite E. auto.
  Qed.
  Lemma reg_some : (forall w x, exists q, reg_wx F lg repr native w x = Some q /\ wf 0 NC q) /\ (forall w y, exists q, reg_wy F lg repr native w y = Some q /\ wf 0 NC q) /\
    (forall x y, exists q, reg_xy F 1 lg native x y = Some q /\ wf 0 NC q).
  Proof.
    pose proof (C21_registry F T 1 lg repr hash to_bytes from_uniform f_of_u64 b native ss S32 ltac:(lia) Fin Obj Inj) as R. cbv zeta in R.
    split; [|split]; intros a c.
    - destruct (R c 0) as (Q & _ & _ & Rm & _). destruct (Rm a) as (_ & (q' & E' & W & _) & _). eauto.
    - destruct (R 0 c) as (Q & _ & _ & Rm & _). destruct (Rm a) as (_ & _ & (q' & E' & W & _) & _). eauto.
    - destruct (R a c) as (Q & _ & _ & Rm & _). destruct (Rm 0) as (_ & _ & _ & (q' & E' & W & _)). eauto.
  Qed.

  Variables (l r : fproof F Fs H) (ul ur : uvals F) (ol or : list F) (bl : blinds F Fs).
  Local Notation lp := (fp_proof l).
  Local Notation rp := (fp_proof r).
  Local Notation L := (shown T lp ul ol).
  Local Notation Rr := (shown T rp ur or).
  Hypotheses (Vl : valid lg native gens cb hs (length ss) l ul) (Vr : valid lg native gens cb hs (length ss) r ur).
  Hypotheses (Lol : length ol = hs) (Lor : length or = hs).
  Ltac ok x E := apply good_some; [|intros x E].
  Ltac inf x E := apply good_bind; [discriminate|intros x E].
  Theorem runs : good (fuse_core F Fs H Hs aff aff' T lg repr native gens gens' cb hs M N' P of_u tag nbits gen fsqrt zeta l r ol or bl).
  Proof.
    destruct Fn as (Fn1 & Fn2 & Fn3 & Fn4 & Fn5). destruct Fb as (Fb1 & Fb2 & Fb3 & Fb4 & Fb5 & Fb6 & Fb7 & Fb8). destruct Fe as (Fe1 & Fe2).
    destruct reg_some as (Rwx & Rwy & Rxy).
    pose proof (vd_published Vl) as Pl. pose proof (vd_published Vr) as Pr.
    pose proof (vd_left Vl) as Ll1. pose proof (vd_right Vl) as Ll2. pose proof (vd_left Vr) as Lr1. pose proof (vd_right Vr) as Lr2.
    assert (HN : (0 < N')%nat) by (destruct N'; lia).
    unfold fuse_core. change (rk_nc lg) with NC. change (rk_n lg) with n.
    rewrite (preamble_values_ok F Fs H cb hs T lp rp ul ur ol or Ll1 Ll2 Lol Lr1 Lr2 Lor Pl Pr). cbn [ebind].
    ok prerx E2. { apply stage_some; [exact Fn1|]. rewrite pre_length with (hs := hs); [lia|repeat split; assumption|repeat split; assumption]. }
    ok pre E3. { apply commit_some. eapply stage_wf'; exact E2. }
    cbv zeta. apply bridge_good; [exact Fb1|cbn; lia|intros bpre E4]. inf d1 E5. ok wd E6. { apply squeeze_some. left. eapply tr_pending; exact E5. }
    destruct (Rwx (fst wd) (pf_chal lp Ch_x)) as (wx0p & E7 & W7). rewrite E7. cbn [ebind].
    destruct (Rwx (fst wd) (pf_chal rp Ch_x)) as (wx1p & E8 & W8). rewrite E8. cbn [ebind].
    ok wx0 E9. { now apply commit_some. } ok wx1 E10. { now apply commit_some. }
    apply bridge_good; [exact Fb2|cbn; lia|intros bsp E11]. inf d2 E12. ok yd E13. { apply squeeze_some. left. eapply tr_pending; exact E12. }
    ok zd E14. { apply squeeze_some. eapply squeeze_ready; exact E13. }
    set (y := fst yd) in *. set (z := fst zd) in *.
    assert (Hint : forall i, (i < 13)%nat -> circuit_y F T lg repr native (N.of_nat i) y = Some (sy_at F T lg repr native y i) /\ wf 0 NC (sy_at F T lg repr native y i)).
    { intros i Hi. apply (sy_some y i). lia. }
    pose proof (sy_some y _ (vd_id Vl)) as Cl.
    pose proof (sy_some y _ (vd_id Vr)) as Cr.
    unfold fuse_source.
    ok claims E15. { exact (claims_some F n z (fun i => circuit_y F T lg repr native (N.of_nat i) y) (sy_at F T lg repr native y) Hint (native_rx lp) (native_rx rp) _ _ (proj1 (vd_wf Vl)) (proj1 (vd_wf Vr)) Cl Cr). }
    ok ie E16. { exact (errors_some F n z (fun i => circuit_y F T lg repr native (N.of_nat i) y) (sy_at F T lg repr native y) Hint (native_rx lp) (native_rx rp) _ _ (proj1 (vd_wf Vl)) (proj1 (vd_wf Vr)) Cl Cr M N' HM HN H22 claims E15). }
    destruct (claims_facts F n z (fun i => circuit_y F T lg repr native (N.of_nat i) y) (sy_at F T lg repr native y) Hint (native_rx lp) (native_rx rp) _ _ (proj1 (vd_wf Vl)) (proj1 (vd_wf Vr)) Cl Cr claims E15) as (Trk & Wca & Wcb & L22).
    assert (Sie : ie_sized M N' ie).
    { destruct (C27_compose F NC M N' (map fst (map fst claims)) (map snd claims) [] 1 1 1 1 HM HN ltac:(now rewrite !map_length) ltac:(rewrite !map_length; lia) Wca Wcb (F_1_neq_0 (f_theory F)) (F_1_neq_0 (f_theory F)))
        as (A1 & B1 & A & B & ie' & oe & _ & _ & E & _ & _ & _ & K1 & K2 & _). pose proof (some_eq _ _ _ E16 E) as XX. subst ie'. split; assumption. }
    ok ierx E17. { apply stage_some; [exact Fn3|]. rewrite (ie_length _ _ _ Sie). lia. }
    destruct (Rwy (fst wd) y) as (wyp & E18 & W18). rewrite E18. cbn [ebind].
    ok wy E19. { now apply commit_some. } ok ies E20. { apply commit_some. eapply stage_wf'; exact E17. }
    apply bridge_good; [exact Fb3|cbn; lia|intros bie E21]. inf d3 E22. ok spg E23. { apply save_some. eapply tr_pending; exact E22. }
    ok mud E24. { apply squeeze_some. left. eapply tr_pending; exact E22. } ok nud E25. { apply squeeze_some. eapply squeeze_ready; exact E24. }
    destruct (feqb (fst mud) 0) eqn:Emu; [exact I|].
    assert (Hmu : fst mud <> 0) by (intros K; rewrite K in Emu; rewrite (proj2 (feqb_true F 0 0) eq_refl) in Emu; discriminate).
    ok a1 E26. { exact (proj1 (inner_some F n z (fun i => circuit_y F T lg repr native (N.of_nat i) y) (sy_at F T lg repr native y) Hint (native_rx lp) (native_rx rp) _ _ (proj1 (vd_wf Vl)) (proj1 (vd_wf Vr)) Cl Cr M N' HM HN H22 claims E15 _)). }
    ok b1 E27. { exact (proj2 (inner_some F n z (fun i => circuit_y F T lg repr native (N.of_nat i) y) (sy_at F T lg repr native y) Hint (native_rx lp) (native_rx rp) _ _ (proj1 (vd_wf Vl)) (proj1 (vd_wf Vr)) Cl Cr M N' HM HN H22 claims E15 _)). }
    rewrite (outer_emulated_ok F Fs H cb hs T lp rp ul ur ol or Ll1 Ll2 Lol Lr1 Lr2 Lor Pl Pr M y (fst mud) (fst nud) ie Hmu (proj2 Sie)). cbn [ebind].
    destruct (outer_some F n z (fun i => circuit_y F T lg repr native (N.of_nat i) y) (sy_at F T lg repr native y) Hint (native_rx lp) (native_rx rp) _ _ (proj1 (vd_wf Vl)) (proj1 (vd_wf Vr)) Cl Cr M N' HM HN H22 claims E15 _ _ a1 b1 E26 E27) as (Oet & Fol).
    destruct Oet as (oet & E29 & Loe). rewrite E29. cbn [ebind].
    ok oerx E30. { apply stage_some; [exact Fn2|]. rewrite oe_length with (n := N') (t := pp_T P); [lia|]. split; [exact Loe|]. split; [cbn [ov_collapsed snd]; rewrite map_length, seq_length; exact (proj1 Sie)|].
      cbn [ov_sponge]. destruct (save_inv F P _ _ E23) as (ds & ES & <-). eapply sized_save; [exact WP| |exact ES].
      destruct (absorb_inv F Fs P _ _ _ E5) as (p1 & _ & D1). destruct (absorb_inv F Fs P _ _ _ E12) as (p2 & _ & D2). destruct (absorb_inv F Fs P _ _ _ E22) as (p3 & _ & D3).
      pose proof (squeeze_inv F P _ _ E6) as Q6. pose proof (squeeze_inv F P _ _ E13) as Q13. pose proof (squeeze_inv F P _ _ E14) as Q14.
      assert (Z1 : sized F P (snd wd)) by (eapply sized_squeeze; [exact WP| |exact Q6]; rewrite D1; do 2 (apply sized_absorb; [exact WP|]); apply sized_absorbs; [exact WP|apply sized_new]).
      assert (Z2 : sized F P (snd yd)) by (eapply sized_squeeze; [exact WP| |exact Q13]; rewrite D2; do 2 (apply sized_absorb; [exact WP|]); auto).
      assert (Z3 : sized F P (snd zd)) by (eapply sized_squeeze; [exact WP| |exact Q14]; auto).
      rewrite D3. do 2 (apply sized_absorb; [exact WP|]); auto. }
    ok oes E31. { apply commit_some. eapply stage_wf'; exact E30. }
    apply bridge_good; [exact Fb4|cbn; lia|intros boe E32]. inf d4 E33. ok mu'd E34. { apply squeeze_some. left. eapply tr_pending; exact E33. }
    ok nu'd E35. { apply squeeze_some. eapply squeeze_ready; exact E34. }
    destruct (feqb (fst mu'd) 0) eqn:Emu'; [exact I|].
    assert (Hmu' : fst mu'd <> 0) by (intros K; rewrite K in Emu'; rewrite (proj2 (feqb_true F 0 0) eq_refl) in Emu'; discriminate).
    destruct (Fol (finv (fst mu'd)) (fst mu'd * fst nu'd)) as (Fat & bp & E37 & Wbp).
    ok at_ E36. { exact Fat. } rewrite E37. cbn [ebind]. ok bb E38. { now apply commit_some. }
    apply bridge_good; [exact Fb5|cbn; lia|intros bab E39]. inf d5 E40. ok xd E41. { apply squeeze_some. left. eapply tr_pending; exact E40. }
    destruct (Rxy (fst xd) y) as (xyp & E42 & W42). rewrite E42. cbn [ebind]. ok xy E43. { now apply commit_some. }
    ok qrx E44. { apply stage_some; [exact Fn4|]. reflexivity. } ok qs E45. { apply commit_some. eapply stage_wf'; exact E44. }
    apply bridge_good; [exact Fb6|cbn; lia|intros bq E46]. inf d6 E47. ok ald E48. { apply squeeze_some. left. eapply tr_pending; exact E47. }
    apply commit_inv in E9, E10, E19, E38, E43. 
    match goal with |- context [native_f NC (ev_fst ?x)] => set (ps := x) in * end.
    assert (Hget : forall k, p_commit NC gens (two_src F (native_rx lp) (native_rx rp) k) = Some (fuse_get F Fs H l r k)).
    { intros [[] c]; unfold two_src, fuse_get; cbn [fst snd]; [apply (vd_commit Vr)|apply (vd_commit Vl)]. }
    destruct (folded F n z (fun i => circuit_y F T lg repr native (N.of_nat i) y) (sy_at F T lg repr native y) Hint
      (native_rx lp) (native_rx rp) (N.to_nat (pf_circuit_id lp)) (N.to_nat (pf_circuit_id rp))
      (proj1 (vd_wf Vl)) (proj1 (vd_wf Vr)) Cl Cr (pf_c lp) (pf_c rp) (child_k L y) (child_k Rr y)
      H gens (fuse_get F Fs H l r) M N' HM HN H22 Hg Hget claims ie (fst mud) (fst nud) (fst mu'd) (fst nu'd) a1 b1 oet at_ bp E15 E16 Hmu E26 E27 E29 Hmu' E36 E37)
      as (_ & _ & _ & _ & WA & _ & CA & _).
    assert (Wps : Forall (fun q => wf 0 NC (fst q) /\ p_commit NC gens (fst q) = Some (snd q)) (eval_write ps)).
    { apply Forall_forall. intros q Hq.
      assert (A : (exists c, q = (native_rx lp c, fp_cm l c)) \/ (exists c, q = (native_rx rp c, fp_cm r c)) \/
                  q = (pf_registry_xy lp, fp_xy_cm l) \/ q = (pf_registry_xy rp, fp_xy_cm r) \/ q = (pf_p lp, pf_p_commitment lp) \/ q = (pf_p rp, pf_p_commitment rp) \/
                  q = wx0 \/ q = wx1 \/ q = wy \/ q = (fst at_, resolve fold_key_eqb (fuse_get F Fs H l r) (snd at_)) \/ q = bb \/ q = xy).
      { revert Hq. unfold eval_write, ceval_write, ps. cbn [map app rxid_all eo_left eo_right eo_wx0 eo_wx1 eo_wy eo_a eo_b eo_xy child_polys ce_rx ce_a ce_b ce_xy ce_p In].
        clear. intros Hq. repeat (destruct Hq as [<-|Hq]; [solve [tauto|left; eauto|left; exists AbA; reflexivity|left; exists AbB; reflexivity|right; left; eauto|right; left; exists AbA; reflexivity|right; left; exists AbB; reflexivity]|]). destruct Hq. }
      destruct A as [[c ->]|[[c ->]|[->|[->|[->|[->|[->|[->|[->|[->|[->| ->]]]]]]]]]]]; cbn [fst snd].
      - split; [apply (vd_wf Vl)|apply (vd_commit Vl)].
      - split; [apply (vd_wf Vr)|apply (vd_commit Vr)].
      - split; [apply (vd_wf Vl)|apply (vd_commit_xy Vl)].
      - split; [apply (vd_wf Vr)|apply (vd_commit_xy Vr)].
      - split; [apply (vd_wf Vl)|apply (vd_commit_p Vl)].
      - split; [apply (vd_wf Vr)|apply (vd_commit_p Vr)].
      - destruct E9 as [-> E9]. auto.
      - destruct E10 as [-> E10]. auto.
      - destruct E19 as [-> E19]. auto.
      - split; [exact WA|exact CA].
      - destruct E38 as [-> E38]. auto.
      - destruct E43 as [-> E43]. auto. }
    assert (Wev : Forall (wf 0 NC) (eval_write (ev_fst ps))).
    { change (eval_write (ev_fst ps)) with (map fst (eval_write ps)). apply Forall_map. eapply Forall_impl; [|exact Wps]. intros q [Q _]. exact Q. }
    assert (HNC : (0 < NC)%nat) by (pose proof (Nat.pow_nonzero 2 lg); lia).
    destruct (C38_f F NC (ev_fst ps) (child_denoms F Fs H T l) (child_denoms F Fs H T r) (fst wd) y z (fst xd) (fst ald) (internal_omega T) HNC Wev) as (_ & _ & fp & E49 & W49 & _).
    rewrite E49. cbn [ebind]. ok f E50. { now apply commit_some. } apply commit_inv in E50.
    apply bridge_good; [exact Fb7|cbn; lia|intros bf E51]. inf d7 E52. ok ud E53. { apply squeeze_some. left. eapply tr_pending; exact E52. }
    ok erx E54. { apply stage_some; [exact Fn5|]. reflexivity. } ok es E55. { apply commit_some. eapply stage_wf'; exact E54. }
    apply bridge_good; [exact Fb8|cbn; lia|intros be E56]. inf d8 E57. ok pbd E58. { apply squeeze_some. left. eapply tr_pending; exact E57. }
    destruct (extract_ok F gen fsqrt zeta nbits Ev SS SN GO (fst pbd)) as (endo & E59 & _). rewrite E59. cbn [ebind].
    set (beta := lift_native F zeta nbits endo).
    destruct (C38_p F H NC gens beta (fst ud) (fst f) (snd f) ps Hg ltac:(destruct E50 as [-> _]; exact W49) ltac:(destruct E50 as [-> Q]; exact Q) Wps) as (p & c & E60 & _).
    change NUM_ENDOSCALING_POINTS with 37%nat. assert (Pf : f = (fst f, snd f)) by (destruct f; reflexivity). rewrite <- Pf in E60. rewrite E60. cbn [ebind].
    pose proof (C29_witness F H 37 beta (snd f :: map snd (p_order ps))) as Hw.
    ok pw E61. { destruct (points_new 37 beta (snd f :: map snd (p_order ps))) as [pw|]; [eauto|]. exfalso. destruct Hw as [Hw|Hw]; [|discriminate]. apply Hw. reflexivity. }
    rewrite E61 in Hw. destruct Hw as (_ & Hpw & Lw & _). injection Lw as Lw.
    ok esc E62. { apply stage_some; [exact Fe1|]. now rewrite map_length, seq_length. }
    inf pxy E63. ok pts E64; [|exact I]. apply stage_some; [exact Fe2|]. rewrite xys_length, (opt_all_len _ _ _ E63). cbn [length]. rewrite app_length, <- Lw.
    apply (f_equal (@length _)) in Hpw. cbn [length] in Hpw. rewrite map_length in Hpw. change (length (p_order ps)) with 36%nat in Hpw.
    replace (length (pw_inputs pw)) with 36%nat by lia. unfold points_values. lia.
  Qed.
End Total.

(** ** what the outcomes say *)
Section Outcome.
  Variables (F Fs : Field) (H : FMod F) (Hs : FMod Fs).
  Add Field FFu9 : (f_theory F).
  Open Scope f_scope.
  Variables (aff : H -> option (Fs * Fs)) (aff' : Hs -> option (F * F)).
  Variables (T : TwoAdic F) (lg : nat) (repr : F -> N) (native : registry F).
  Variables (gens : list H) (gens' : list Hs).
  Variables (cb : F) (hs M N' : nat) (P : pparams F) (of_u : BinNums.N -> F) (tag : list BinNums.N)
    (nbits : nat) (gen : F) (fsqrt : F -> option F) (zeta : F).
  Local Notation rate := (pp_RATE P).
  Local Notation pi := (poseidon P).
  Local Notation tagv := (tag_values F of_u tag).
  Definition finite_points (u : uvals F) : Prop := forall f, exists c, aff' c = Some (uv_pt u f).
  Definition outcome (x : fault + frun F Fs H) : Prop :=
    match x with
    | inl AtInfinity => (exists h, aff h = None) \/ (exists c, aff' c = None)
    | inl NoInverse => exists u, finite_points u /\ transcript P tagv u /\ (uv_el u Umu = 0 \/ uv_el u Umu' = 0)
    | inl Misfit => True
    | inr R => exists u, instance_of R u /\ finite_points u /\ transcript P tagv u
    end.
  Lemma out_ok {A : Type} (o : option A) k : (forall a, o = Some a -> outcome (k a)) -> outcome (ebind Misfit o k).
  Proof. intros Hk. destruct o; [now apply Hk|exact I]. Qed.
  Lemma opt_all_none {A B : Type} (f : A -> option B) : forall l, opt_all f l = None -> exists x, f x = None.
  Proof.
    induction l as [|x l IH]; intros E; cbn [opt_all] in E; [discriminate|]. destruct (f x) eqn:Q; [|eauto]. destruct (opt_all f l); [discriminate|]. now apply IH.
  Qed.
  Lemma out_bridge parents v bld pts k : (forall br, (exists c, br_commitment br = aff' c) -> outcome (k br)) ->
    outcome (ebind (pts_fault F Fs H aff pts) (bridge_commit F Fs H Hs aff aff' lg gens' parents v bld pts) k).
  Proof.
    intros Hk. unfold pts_fault, bridge_commit. destruct (opt_all aff pts) as [ps|] eqn:E; cbn [obind ebind].
    - destruct (stage_rx _ _ _ _ _) as [q|]; [|exact I]. cbn [obind]. destruct (p_commit _ _ _) as [c|]; [|exact I]. cbn [option_map ebind]. apply Hk. exists c. reflexivity.
    - left. eapply opt_all_none; exact E.
  Qed.
  Lemma out_absorb d b k : (exists c, br_commitment b = aff' c) -> (forall xy, br_commitment b = Some xy -> (exists c, aff' c = Some xy) -> outcome (k (d_absorb rate pi (d_absorb rate pi d (fst xy)) (snd xy)))) ->
    outcome (ebind AtInfinity (tr_absorb F Fs P d b) k).
  Proof.
    intros (c & Ec) Hk. unfold tr_absorb. destruct (br_commitment b) as [[x y]|] eqn:Q; cbn [ebind].
    - apply (Hk (x, y)); eauto.
    - right. eauto.
  Qed.
  Lemma out_squeeze d k : (forall v d', d_squeeze rate pi d = inr (v, d') -> outcome (k (v, d'))) -> outcome (ebind Misfit (tr_squeeze F P d) k).
  Proof. intros Hk. unfold tr_squeeze. destruct (d_squeeze rate pi d) as [e|[v d']] eqn:Q; [exact I|]. cbn [ebind]. now apply Hk. Qed.
  Lemma sq_exists d : ready F d -> exists v d', d_squeeze rate pi d = inr (v, d') /\ ready F d'.
  Proof.
    intros R. destruct (squeeze_some F P d R) as ([v d'] & E). pose proof (squeeze_ready F P _ _ E) as R'. apply squeeze_inv in E. exists v, d'. auto.
  Qed.

  Variables (l r : fproof F Fs H) (ol or : list F) (bl : blinds F Fs).
  Theorem outcomes : outcome (fuse_core F Fs H Hs aff aff' T lg repr native gens gens' cb hs M N' P of_u tag nbits gen fsqrt zeta l r ol or bl).
  Proof.
    unfold fuse_core. apply out_ok; intros prew _. apply out_ok; intros prerx _. apply out_ok; intros pre _. cbv zeta.
    apply out_bridge; intros bpre B1. apply out_absorb; [exact B1|]. intros p1 C1 I1. apply out_squeeze; intros w dw E6. cbn [fst snd].
    do 4 (apply out_ok; intros ? _). apply out_bridge; intros bsp B2. apply out_absorb; [exact B2|]. intros p2 C2 I2. apply out_squeeze; intros y dy E13. apply out_squeeze; intros z dz E14. cbn [fst snd] in *.
    apply out_ok; intros claims _. do 5 (apply out_ok; intros ? _). apply out_bridge; intros bie B3. apply out_absorb; [exact B3|]. intros p3 C3 I3.
    apply out_ok; intros spg _. apply out_squeeze; intros mu dmu E24. apply out_squeeze; intros nu dnu E25. cbn [fst snd] in *.
    assert (Tg : forall ops, d_run rate pi (map DAbsorb tagv ++ ops) (d_new (pp_T P)) = d_run rate pi ops (tr_new F P of_u tag)) by (intros ops; apply d_run_absorbs).
    assert (Rn : ready F dnu) by (apply (squeeze_ready F P dmu (nu, dnu)); unfold tr_squeeze; now rewrite E25).
    destruct (feqb mu 0) eqn:Emu.
    { apply feqb_true in Emu. cbn [outcome].
      pose (q := fun d => d_absorb rate pi (d_absorb rate pi d (fst p3)) (snd p3)). assert (Rq : forall d, ready F (q d)) by (intros d; left; apply absorb_pending).
      destruct (sq_exists (q dnu) (Rq _)) as (mu' & dmu' & E34 & R34). destruct (sq_exists dmu' R34) as (nu' & dnu' & E35 & _).
      destruct (sq_exists (q dnu') (Rq _)) as (x & dx & E41 & _). destruct (sq_exists (q dx) (Rq _)) as (al & dal & E48 & _).
      destruct (sq_exists (q dal) (Rq _)) as (u & du & E53 & _). destruct (sq_exists (q du) (Rq _)) as (pb & dpb & E58 & _). unfold q in *.
      exists (mk_uvals (fun p => match p with PPreamble => p1 | PSPrime => p2 | _ => p3 end)
                (fun e => match e with Uw => w | Uy => y | Uz => z | Umu => mu | Unu => nu | Umu' => mu' | Unu' => nu' | Uc => 0 | Ux => x | Ualpha => al | Uu => u | Upre_beta => pb | Uv => 0 end)).
      split; [intros []; assumption|]. split; [|left; exact Emu].
      eexists. unfold ops_1, ops_2, t_pt. rewrite <- !app_assoc, Tg. cbn [app d_run uv_pt]. rewrite E6, E13, E14, E24, E25, E34, E35, E41, E48, E53, E58. reflexivity. }
    do 5 (apply out_ok; intros ? _). apply out_ok; intros oes _. apply out_bridge; intros boe B4. apply out_absorb; [exact B4|]. intros p4 C4 I4.
    apply out_squeeze; intros mu' dmu' E34. apply out_squeeze; intros nu' dnu' E35. cbn [fst snd] in *.
    destruct (feqb mu' 0) eqn:Emu'.
    { apply feqb_true in Emu'. cbn [outcome].
      pose (q := fun d => d_absorb rate pi (d_absorb rate pi d (fst p3)) (snd p3)). assert (Rq : forall d, ready F (q d)) by (intros d; left; apply absorb_pending).
      destruct (sq_exists (q dnu') (Rq _)) as (x & dx & E41 & _). destruct (sq_exists (q dx) (Rq _)) as (al & dal & E48 & _).
      destruct (sq_exists (q dal) (Rq _)) as (u & du & E53 & _). destruct (sq_exists (q du) (Rq _)) as (pb & dpb & E58 & _). unfold q in *.
      exists (mk_uvals (fun p => match p with PPreamble => p1 | PSPrime => p2 | POuterError => p4 | _ => p3 end)
                (fun e => match e with Uw => w | Uy => y | Uz => z | Umu => mu | Unu => nu | Umu' => mu' | Unu' => nu' | Uc => 0 | Ux => x | Ualpha => al | Uu => u | Upre_beta => pb | Uv => 0 end)).
      split; [intros []; assumption|]. split; [|right; exact Emu'].
      eexists. unfold ops_1, ops_2, t_pt. rewrite <- !app_assoc, Tg. cbn [app d_run uv_pt]. rewrite E6, E13, E14, E24, E25, E34, E35, E41, E48, E53, E58. reflexivity. }
    apply out_ok; intros at_ _. apply out_ok; intros bp _. apply out_ok; intros bb _. apply out_bridge; intros bab B5. apply out_absorb; [exact B5|]. intros p5 C5 I5. apply out_squeeze; intros x dx E41. cbn [fst snd] in *.
    apply out_ok; intros xyp _. apply out_ok; intros xy _. apply out_ok; intros qrx _. apply out_ok; intros qs _. apply out_bridge; intros bq B6. apply out_absorb; [exact B6|]. intros p6 C6 I6. apply out_squeeze; intros al dal E48. cbn [fst snd] in *.
    apply out_ok; intros fp _. apply out_ok; intros f _. apply out_bridge; intros bf B7. apply out_absorb; [exact B7|]. intros p7 C7 I7. apply out_squeeze; intros u du E53. cbn [fst snd] in *.
    apply out_ok; intros erx _. apply out_ok; intros es _. apply out_bridge; intros be B8. apply out_absorb; [exact B8|]. intros p8 C8 I8. apply out_squeeze; intros pb dpb E58. cbn [fst snd] in *.
    apply out_ok; intros endo _. apply out_ok; intros pcv _. apply out_ok; intros pw _. apply out_ok; intros esc _.
    match goal with |- outcome (ebind AtInfinity ?o _) => destruct o as [pxy|] eqn:E63; cbn [ebind]; [|left; eapply opt_all_none; exact E63] end.
    apply out_ok; intros pts _. cbn [outcome].
    exists (mk_uvals (fun p => match p with PPreamble => p1 | PSPrime => p2 | PInnerError => p3 | POuterError => p4 | PAB => p5 | PQuery => p6 | PF => p7 | PEval => p8 end)
                (fun e => match e with Uw => w | Uy => y | Uz => z | Umu => mu | Unu => nu | Umu' => mu' | Unu' => nu'
                          | Uc => p_revdot (rk_nc lg) (fst at_) (fst bb) | Ux => x | Ualpha => al | Uu => u | Upre_beta => pb | Uv => snd pcv end)).
    split; [repeat split; intros []; assumption|]. split; [intros []; assumption|].
    eexists. unfold ops_1, ops_2, t_pt. rewrite <- !app_assoc, Tg. cbn [app d_run uv_pt]. rewrite E6, E13, E14, E24, E25, E34, E35, E41, E48, E53, E58. reflexivity.
  Qed.
End Outcome.
