(** C58 on the application of Props_FuseEx: the seeded trivial proof, and what the other
    theorems say about it. *)
From Coq Require Import ZArith List Arith NArith Bool Lia.
From Verif Require Import FieldDef ModDef GF ArithModel FFTModel SparseModel SparseSpec CircModel CircSpec GadgetModel GadgetSpec SpongeModel SpongeSpec
  StageModel RegModel RegSpec PointSpec EndoSpec EscModel EscSpec PcdModel PcdSpec RecModel RecSpec CompileModel CompileSpec CompileSpec2
  AppModel AppSpec AppProofs Props_Arith Props_Reg Props_App Props_Comp Props_Esc Props_Rec Props_Step Props_StepEx VerifyModel VerifySpec VerifySpec2 Props_Verify Props_VerifyEx
  NestedModel NestedSpec FuseModel FuseSpec FuseProofs FuseProofs5 Props_Fuse Props_FuseEx Props_Seed.
Import ListNotations.
Local Open Scope nat_scope.

Lemma one2161 : l2161 1 = f1.
Proof. apply gf_ext. reflexivity. Qed.
Lemma fx_code_re : big_code (PStep IRerandomize) = fun W one => rerandomize_circuit F2161 W one false 2 (Some (l2161 8)) (Some f1) [l2161 12].
Proof. cbn [big_code]. unfold re_circuit. now rewrite one2161. Qed.
Lemma fx_code_tr : big_code (PStep ITrivial) = fun W one => trivial_circuit F2161 W one false 2 (Some f1).
Proof. cbn [big_code]. now rewrite one2161. Qed.
Notation fx_scales := (scales F2161 F97 8 (l97 35) (FieldMod F2161) fx_aff).
Lemma fx_scales_ok (R : frun F2161 F97 (FieldMod F2161)) : fx_scales R.
Proof.
  intros p0 qs ints A0 AI AT Lq Li. assert (p0 = (f0, f0)) as -> by (unfold fx_aff in A0; congruence).
  rewrite (const_points _ qs (f0, f0) AI), (const_points _ ints (f0, f0) AT), Lq, Li. rewrite <- (map_map (nbit _) (fe F97)). apply origin_steps; [now rewrite map_length, seq_length|discriminate].
Qed.
Lemma fx_fortunate native (c0 : fproof F2161 F97 (FieldMod F2161)) R u : fx_trivial native = Some c0 -> instance_of R u ->
  (forall f, exists c, fx_aff' c = Some (uv_pt u f)) -> transcript big_params (tag_values F2161 big_of_u big_tag) u ->
  fortunate F2161 F97 TA2161 8 (l97 35) (FieldMod F2161) fx_aff c0 c0 R.
Proof.
  intros Ec0 In_ Hp Tr. split; [|apply fx_scales_ok].
  destruct (fx_elements u (fx_challenges u Hp Tr)) as (Ew & Ey & Ez & Ex & Eu & _). destruct In_ as (_ & I1 & I2 & I3 & _ & _ & _ & _ & _ & I9 & _ & I11 & _).
  rewrite I1 in Ew. rewrite I2 in Ey. rewrite I3 in Ez. rewrite I9 in Ex. rewrite I11 in Eu. destruct (fx_trivial_ch native c0 Ec0) as (Cc & Ci).
  unfold degenerate, child_denoms. cbv zeta. rewrite !Cc, Ci, Ew, Ey, Ez, Ex, Eu. intros [Z|[Z|Z]].
  - apply (f_equal v2161) in Z. vm_compute in Z. discriminate.
  - apply (f_equal v2161) in Z. vm_compute in Z. discriminate.
  - assert (Q : existsb (feqb (l2161 1107)) (points_of (mk_denoms (mk_cdenoms f1 f1 f1 (omega_j TA2161 0%N)) (mk_cdenoms f1 f1 f1 (omega_j TA2161 0%N)) (l2161 78) (l2161 660) (l2161 2116)
        (fmul (l2161 660) (l2161 1389)) (internal_omega TA2161))) = false) by (vm_compute; reflexivity).
    assert (Q' : existsb (feqb (l2161 1107)) (points_of (mk_denoms (mk_cdenoms f1 f1 f1 (omega_j TA2161 0%N)) (mk_cdenoms f1 f1 f1 (omega_j TA2161 0%N)) (l2161 78) (l2161 660) (l2161 2116)
        (fmul (l2161 660) (l2161 1389)) (internal_omega TA2161))) = true) by (apply existsb_exists; exists (l2161 1107); split; [exact Z|apply feqb_true; reflexivity]).
    congruence.
Qed.
(** what [returns] gives on the two trivial proofs of this application: the run goes
    through and is fortunate *)
Lemma fx_returns native nested c0 bl K : fx_built native nested -> fx_trivial native = Some c0 ->
  returns F2161 F97 TA2161 9 big_repr big_b 2 5 5 big_params big_of_u big_tag 8 gen2161 sqrt2161 big_zeta (l97 35) native (FieldMod F2161) fx_aff (FieldMod F97) fx_aff' big_gens fx_gens'
    c0 c0 (AppSpec.padded 2 f1 []) (AppSpec.padded 2 f1 []) bl K -> exists c, K c.
Proof.
  intros B Ec0. destruct (C57_trivial_runs _ _ _ _ _ _ _ _ _ _ _ _ _ _ _ _ _ _ _ _ _ _ _ _ _ _ _ _ _ _ _ _ _ _ _ _ _ _ _ _ _ _ _ _ _ _ B) with (Hs := FieldMod F97) (aff' := fx_aff') (gens := big_gens) (gens' := fx_gens')
    as (c0' & Ec0' & V0); try exact fx_on; try exact fx_gens_len; try exact fx_gens_len'; try lia. rewrite Ec0 in Ec0'.
  assert (c0' = c0) as -> by congruence. destruct (V0 ltac:(intros h; discriminate)) as (u0 & V). clear V0.
  unfold returns.
  pose proof (C57_runs _ _ _ _ _ _ _ _ _ _ _ _ _ _ _ _ _ _ _ _ _ _ _ _ _ _ _ _ _ _ _ _ _ _ _ _ _ _ _ _ _ _ _ _ _ _ B C34_big_wf ltac:(lia) ltac:(lia) ltac:(lia) sqrt2161_some sqrt2161_none gen2161_ok eq_refl
    (FieldMod F2161) fx_aff (FieldMod F97) fx_aff' big_gens fx_gens' fx_gens_len fx_gens_len' c0 c0 u0 u0 (AppSpec.padded 2 f1 []) (AppSpec.padded 2 f1 []) bl V V eq_refl eq_refl) as Run.
  destruct (fx_fuse native c0 c0 (AppSpec.padded 2 f1 []) (AppSpec.padded 2 f1 []) bl) as [[ | | ]|R].
  - destruct Run as [(h & E)|(h & E)]; discriminate.
  - destruct Run as (u & Hp & Tr & Z). destruct (fx_elements u (fx_challenges u Hp Tr)) as (_ & _ & _ & _ & _ & E1 & E2). exfalso.
    destruct Z as [Z|Z]; [rewrite Z in E1; apply (f_equal v2161) in E1; vm_compute in E1; discriminate|rewrite Z in E2; apply (f_equal v2161) in E2; vm_compute in E2; discriminate].
  - destruct Run.
  - destruct Run as (u & In_ & Hp & Tr). intros K0. apply K0. now apply (fx_fortunate native c0 R u).
Qed.
Notation fx_often native nested := (often F2161 F97 TA2161 TA97 9 big_repr ex_repr big_b 2 9 native nested (FieldMod F2161) (@feqb F2161) big_gens).

(** Here a seeded trivial proof [t] exists, so that a proof can be rerandomised against
    it (take [t] for both); the trivial header rerandomised from the trivial proof gives
    [c], which is accepted at all of the 2161 values of y and z, and therefore carries
    the header of its left child. *)
Example C58_ex : exists native nested, fx_built native nested /\
  exists (c0 t c : fproof F2161 F97 (FieldMod F2161)),
    fx_trivial native = Some c0 /\ (forall f, br_commitment (pf_bridge (fp_proof c0) f) <> None) /\
    fx_made native true t f1 [] /\ pf_circuit_id (fp_proof t) = 14%N /\
    fx_made native true c f1 [] /\ pf_circuit_id (fp_proof c) = 13%N /\
    (exists u, valid 9 native big_gens big_b 2 15 c u) /\ fx_often native nested (fp_proof c) (Some f1) (Some []) all2161.
Proof.
  destruct fx_builds as (native & nested & B). exists native, nested. split; [exact B|].
  destruct (C57_trivial_runs _ _ _ _ _ _ _ _ _ _ _ _ _ _ _ _ _ _ _ _ _ _ _ _ _ _ _ _ _ _ _ _ _ _ _ _ _ _ _ _ _ _ _ _ _ _ B) with (Hs := FieldMod F97) (aff' := fx_aff') (gens := big_gens) (gens' := fx_gens')
    as (c0 & Ec0 & V0); try exact fx_on; try exact fx_gens_len; try exact fx_gens_len'; try lia.
  destruct (V0 ltac:(intros h; discriminate)) as (u0 & V). clear V0.
  assert (Fin : forall f, br_commitment (pf_bridge (fp_proof c0) f) <> None) by (intros f; destruct (vd_published V) as (Pf & _); rewrite (Pf f); discriminate).
  pose proof (made_trivial F2161 F97 TA2161 9 big_repr big_b 2 5 5 big_params big_of_u big_tag 8 gen2161 sqrt2161 big_zeta [] (l97 35) big_code native (FieldMod F2161) fx_aff (FieldMod F97) fx_aff' big_gens fx_gens' c0 Ec0 Fin) as M0.
  pose proof (C58_seeded_trivial _ _ _ _ _ _ _ _ _ _ _ _ _ _ _ _ _ _ _ _ _ _ _ _ _ _ _ _ _ _ _ _ _ _ _ _ _ _ _ _ _ _ _ _ _ _ B fx_code_tr C34_big_wf ltac:(lia) ltac:(lia) ltac:(lia) sqrt2161_some sqrt2161_none gen2161_ok eq_refl
    (FieldMod F2161) fx_aff (FieldMod F97) fx_aff' (@feqb F2161) big_gens fx_gens' (fun a b => feqb_true F2161 a b) fx_gens_len fx_gens_len' fx_on c0 fx_blinds Ec0 Fin) as St.
  destruct (fx_returns native nested c0 fx_blinds _ B Ec0 St) as (t & It & Mt & _). clear St.
  pose proof (C58_fuse _ _ _ _ _ _ _ _ _ _ _ _ _ _ _ _ _ _ _ _ _ _ _ _ _ _ _ _ _ _ _ _ _ _ _ _ _ _ _ _ _ _ _ _ _ _ B C34_big_wf ltac:(lia) ltac:(lia) ltac:(lia) sqrt2161_some sqrt2161_none gen2161_ok eq_refl
    (FieldMod F2161) fx_aff (FieldMod F97) fx_aff' (@feqb F2161) big_gens fx_gens' (fun a b => feqb_true F2161 a b) fx_gens_len fx_gens_len' fx_on
    false c0 f1 [] false c0 f1 [] (PStep IRerandomize) 13%N (map wir (AppSpec.padded 2 f1 [] ++ AppSpec.padded 2 f1 [] ++ AppSpec.padded 2 f1 [])) f1 [] fx_blinds M0 M0 (or_intror (conj eq_refl eq_refl)) Logic.I eq_refl) as Sr.
  destruct (fx_returns native nested c0 fx_blinds _ B Ec0 (Sr ltac:(cbn; lia)
    ltac:(rewrite fx_code_re; apply (proj1 (proj2 (C44_rerandomize F2161 2 (l2161 8) f1 [l2161 12] (le_n 2)))); exists (AppSpec.padded 2 f1 []); split; reflexivity)
    ltac:(rewrite map_map; cbn [ew wir]; now rewrite map_id))) as (c & Ic & Mc & Ac). clear Sr.
  exists c0, t, c. repeat (split; [assumption|]). split.
  - destruct (C57_made _ _ _ _ _ _ _ _ _ _ _ _ _ _ _ _ _ _ _ _ _ _ _ _ _ _ _ _ _ _ _ _ _ _ _ _ _ _ _ _ _ _ _ _ _ _ B C34_big_wf ltac:(lia) ltac:(lia) ltac:(lia) sqrt2161_some sqrt2161_none gen2161_ok eq_refl
      (FieldMod F2161) fx_aff (FieldMod F97) fx_aff' (@feqb F2161) big_gens fx_gens' (fun a b => feqb_true F2161 a b) fx_gens_len fx_on true c f1 [] Mc) as ((u & Vc & _) & _). now exists u.
  - assert (La : 4 * 2 ^ 9 <= length all2161) by (apply Nat.leb_le; vm_compute; reflexivity).
    split; [exact all2161_nodup|]. split; [exact La|]. intros y _. exists all2161. split; [exact all2161_nodup|]. split; [exact La|]. intros z _. exists f0, f0, f0. apply Ac.
Qed.
