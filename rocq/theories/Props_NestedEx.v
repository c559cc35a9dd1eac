(** C56: a registry of the nested circuits over F241 with a curve of order 211, and an
    application whose verifier uses the endoscaling circuits. *)
From Coq Require Import ZArith List Arith NArith Bool Lia Ring Field.
From Verif Require Import FieldDef ModDef GF ArithModel ArithSpec ArithProofs FFTModel FFTProofs SparseModel SparseSpec SparseProofs CircModel CircSpec GadgetModel GadgetSpec SpongeModel
  StageModel StageSpec StageProofs RegModel RegSpec RegProofs RegProofs2 PointSpec EndoSpec EndoProofs EscModel EscSpec ParSpec PcdModel PcdSpec RecModel RecSpec CompileModel CompileSpec CompileSpec2 CompileProofs CompileProofs2
  AppModel AppSpec AppProofs Props_Reg Props_Stage Props_App Props_Comp Props_Esc Props_Step Props_StepEx VerifyModel VerifySpec VerifySpec2 VerifyProofs VerifyProofs4 VerifyProofs8 VerifyProofs10 Props_Verify Props_VerifyEx
  NestedModel NestedSpec NestedProofs Props_Nested NestedExample.
Import ListNotations.
Local Open Scope nat_scope.

(** ** the field, 240 = 2^4 * 15 *)
Lemma ta241_pos : (1 <= 4)%nat. Proof. lia. Qed.
Lemma ta241_order : (fpow (l241 111) (2 ^ (4 - 1)))%F = (- (1))%F. Proof. apply gf_ext. vm_compute. reflexivity. Qed.
Lemma ta241_inv : (l241 111 * l241 76)%F = 1%F. Proof. apply gf_ext. vm_compute. reflexivity. Qed.
Lemma ta241_half : (two * l241 121)%F = 1%F. Proof. apply gf_ext. vm_compute. reflexivity. Qed.
Definition TA241 : TwoAdic F241 := mkTwoAdic F241 4 (l241 111) (l241 76) (l241 121) ta241_pos ta241_order ta241_inv ta241_half.
Definition all241 : list F241 := map (fun n => l241 (Z.of_nat n)) (seq 0 241).
Lemma all241_nodup : NoDup all241.
Proof.
  apply (NoDup_map_inv v241). unfold all241. rewrite map_map. rewrite (map_ext_in _ Z.of_nat).
  - apply FinFun.Injective_map_NoDup; [intros a b H; now apply Nat2Z.inj|apply seq_NoDup].
  - intros a Ha. apply in_seq in Ha. unfold v241, l241. rewrite val_mk. apply Z.mod_small. lia.
Qed.
Definition nx_repr (a : F241) : N := Z.to_N (v241 a).
Section KeyInj.
Add Field FFnx1 : (f_theory F241).
Lemma nx_key_inj : forall w w' : F241, omega_key F241 nx_repr w = omega_key F241 nx_repr w' -> w = w'.
Proof.
  intros w w' E. unfold omega_key, nx_repr in E. cbv zeta in E.
  assert (B : forall a : F241, (0 <= v241 a < 241)%Z) by (intros a; apply (val_range 241)).
  rewrite !N.mod_small in E by (match goal with |- (Z.to_N (v241 ?a) < _)%N => pose proof (B a); lia end).
  assert (Q : v241 (w + w + (w + w) + w)%F = v241 (w' + w' + (w' + w') + w')%F).
  { pose proof (B (w + w + (w + w) + w)%F). pose proof (B (w' + w' + (w' + w') + w')%F). lia. }
  apply gf_ext in Q.
  assert (I5 : (l241 193 * (f1 + f1 + (f1 + f1) + f1))%F = f1) by (apply gf_ext; vm_compute; reflexivity).
  replace w with (l241 193 * (f1 + f1 + (f1 + f1) + f1) * w)%F by (rewrite I5; ring).
  replace w' with (l241 193 * (f1 + f1 + (f1 + f1) + f1) * w')%F by (rewrite I5; ring).
  transitivity (l241 193 * (w + w + (w + w) + w))%F; [ring|]. rewrite Q. ring.
Qed.
End KeyInj.

(** ** two points, one step, two bits; 32 gates *)
Definition c1 := l241 11. Definition c2 := l241 13. Definition c3 := l241 17. Definition c4 := l241 19.
Notation nx_nobj := (nested_obj nx_zeta c1 c2 c3 c4 c1 c2 c3 5 2 2).
Notation nx_register := (nested_register_all F241 1 nx_nobj (rb_new F241)).
Notation nx_finalize := (finalize F241 TA241 5 nx_repr ex_hash (fun a => [nx_repr a]) (fun l => l241 (Z.of_N (hd 0%N l))) (fun n => l241 (Z.of_N n))).
Lemma nx_inj : forall w w' : F241, fpow w (2 ^ Nat.log2_up (1 + 11)) = f1 -> fpow w' (2 ^ Nat.log2_up (1 + 11)) = f1 -> omega_key F241 nx_repr w = omega_key F241 nx_repr w' -> w = w'.
Proof. intros w w' _ _. apply nx_key_inj. Qed.
Lemma nx_s32 : ta_S TA241 <= 32. Proof. cbn. lia. Qed.
Example C56_builds_ex : exists sb nested, nx_register = Some sb /\ nx_finalize sb = Some nested.
Proof.
  apply (proj2 (C56_builds F241 TA241 5 nx_repr ex_hash (fun a => [nx_repr a]) (fun l => l241 (Z.of_N (hd 0%N l))) (fun n => l241 (Z.of_N n)) c1 c2 c3 c4 c1 c2 c3 nx_zeta 2 2 1 1
    eq_refl eq_refl nx_s32 nx_inj)).
  split; [|change (Nat.log2_up (1 + 11)) with 4; cbn; lia].
  intros s Hs. assert (s = 0) as -> by lia. apply fits_b_ok. vm_compute. reflexivity.
Qed.

(** ** points of the curve *)
Definition nx_s : F211 := lift_native F211 nx_lambda 2 3%N.
Definition nx_P : nx_curve := l211 5.
Definition nx_Q : nx_curve := l211 17.
Definition nx_R : nx_curve := fadd (fmul nx_s (l211 5)) (l211 17) : F211.
Lemma nx_points : points_new (E := nx_curve) 2 nx_s [nx_P; nx_Q] = Some (mk_points nx_P [nx_Q] [nx_R]).
Proof. reflexivity. Qed.
Definition nx_p : F241 * F241 := (l241 62, l241 165).
Definition nx_q : F241 * F241 := (l241 138, l241 71).
Definition nx_r : F241 * F241 := (l241 53, l241 117).
Lemma nx_aff_p : nx_aff nx_P = Some nx_p. Proof. apply nopt_eqb_ok. vm_compute. reflexivity. Qed.
Lemma nx_aff_q : nx_aff nx_Q = Some nx_q. Proof. apply nopt_eqb_ok. vm_compute. reflexivity. Qed.
Lemma nx_aff_r : nx_aff nx_R = Some nx_r. Proof. apply nopt_eqb_ok. vm_compute. reflexivity. Qed.
Lemma nx_clash : no_clash (E := nx_curve) nx_s nx_P [nx_Q] 0 1.
Proof.
  intros i q Hi Hq. assert (i = 0) as -> by lia. cbn [nth_error] in Hq. injection Hq as <-.
  split; intros H; apply (f_equal v211) in H; vm_compute in H; discriminate.
Qed.
Lemma nx_lam : (nx_lambda * nx_lambda + nx_lambda + f1)%F = f0. Proof. apply gf_ext. vm_compute. reflexivity. Qed.
Lemma fnat_val m : v211 (fnat m) = (Z.of_nat m mod 211)%Z.
Proof.
  induction m as [|m IH]; [reflexivity|]. cbn [fnat].
  assert (A : forall a b : F211, v211 (a + b)%F = ((v211 a + v211 b) mod 211)%Z) by (intros a b; unfold v211; cbn [fadd F211 GF]; unfold gadd; apply val_mk).
  rewrite A, IH. replace (v211 f1) with 1%Z by reflexivity. rewrite Nat2Z.inj_succ. unfold Z.succ.
  first [rewrite Zplus_mod_idemp_l; reflexivity | rewrite Zplus_mod_idemp_r; f_equal; lia].
Qed.
Lemma nx_order : forall m, 0 < m < (3 * 2 ^ (2 / 2)) * (3 * 2 ^ (2 / 2)) -> fnat m <> (f0 : F211).
Proof.
  intros m Hm H. cbn in Hm. apply (f_equal v211) in H. rewrite fnat_val in H. rewrite Z.mod_small in H by lia. replace (v211 f0) with 0%Z in H by reflexivity. lia.
Qed.

(** the witness of these points, passing at every challenge; every element of the field
    is a challenge, so the hypotheses of the soundness theorems are met, and the carried
    wires are those of the points *)
Example C56_ex : exists sb nested (rp : nrxid -> poly F241) w, let cy := fun i y => circuit_y F241 TA241 5 nx_repr nested (N.of_nat i) y in
  nx_register = Some sb /\ nx_finalize sb = Some nested /\ (forall c, wf 0 (4 * 2 ^ 5) (rp c)) /\
  nested_passes (2 ^ 5) 1 cy rp /\ nested_accepted (2 ^ 5) 1 cy rp all241 /\
  nested_proved nx_zeta (2 ^ 5) 2 2 1 1 6 rp w /\
  wi_bits w = map (fun j => fe F241 (nbit 3 j)) (seq 0 2) /\ nx_aff nx_P = Some (wi_initial w) /\ map nx_aff [nx_Q] = map Some (wi_inputs w) /\
  nth_error (wi_ints w) 0 = nx_aff (combo (E := nx_curve) nx_s [nx_P; nx_Q]).
Proof.
  destruct C56_builds_ex as (sb & nested & Er & Ef). exists sb, nested.
  destruct (C56_honest F241 TA241 5 nx_repr _ _ _ _ c1 c2 c3 c4 c1 c2 c3 nx_zeta 2 2 1 1 eq_refl eq_refl sb nested nx_s32 Ef eq_refl nx_inj Er
    F211 nx_b nx_lambda nx_curve two241 nx_lam eq_refl nx_order (le_n 1) 3%N [nx_P; nx_Q] _ nx_p [nx_q] [nx_r] (l241 7) (l241 8) [] [[l241 1; l241 2]]
    nx_points nx_aff_p ltac:(cbn [map pw_inputs]; now rewrite <- nx_aff_q) ltac:(cbn [map pw_interstitials]; now rewrite <- nx_aff_r) nx_clash)
    as (rp & Wp & _ & _ & Ec & _ & Pa).
  { intros j Hj. do 8 (destruct j as [|j]; [cbn; lia|]). lia. }
  assert (L : 4 * 2 ^ 5 <= length all241) by (unfold all241; rewrite map_length, seq_length; cbn; lia).
  assert (Acc : nested_accepted (2 ^ 5) 1 (fun i y => circuit_y F241 TA241 5 nx_repr nested (N.of_nat i) y) rp all241).
  { split; [exact all241_nodup|]. split; [exact L|]. intros y _. exists all241. split; [exact all241_nodup|]. split; [exact L|]. intros z _.
    exact (Pa y z). }
  destruct (C56_combo F241 TA241 5 nx_repr _ _ _ _ c1 c2 c3 c4 c1 c2 c3 nx_zeta 2 2 1 1 eq_refl eq_refl sb nested nx_s32 Ef eq_refl nx_inj Er
    F211 nx_b nx_lambda nx_curve two241 nx_lam eq_refl nx_order (le_n 1) rp all241 3%N nx_P [nx_Q] Wp Acc) as (w & Pw & Hw).
  assert (w = mk_wires (map (fun j => fe F241 (nbit 3 j)) (seq 0 2)) nx_p [nx_q] [nx_r]) as Ew.
  { apply (carried_inj (2 ^ 5) 2 1 1 6 (rp NrEndoscalar) (rp NrPoints)); [exact (proj1 Pw)|repeat split|exact (proj1 (proj2 Pw))|exact Ec]. }
  exists rp, w. cbv zeta. do 6 (split; [assumption|]). subst w. cbn [wi_bits wi_initial wi_inputs wi_ints] in Hw |- *.
  split; [reflexivity|]. split; [exact nx_aff_p|]. split; [cbn [map]; now rewrite nx_aff_q|].
  refine (proj2 (proj2 (Hw eq_refl nx_aff_p _))). cbn [map]. now rewrite <- nx_aff_q.
Qed.

(** ** running a circuit with the values of another run *)
(** the values a witness run puts on its gates *)
Fixpoint values_of {F : Field} {A : Type} (p : G F F A) : list (F * F * F * F) :=
  match p with
  | GRet _ | GErr => []
  | GGate None _ | GAlloc None _ => []
  | GGate (Some (a, b, c, d)) k => (a, b, c, d) :: values_of (k a b c d)
  | GAlloc (Some v) k => (v, v, v, v) :: values_of (k v)
  | GAdd lc k => values_of (k (lin_spec (fun w => w) lc))
  | GEnf _ k => values_of k
  end.
Fixpoint replay {F : Field} {A : Type} (p : G F F A) (ws : list (F * F * F * F)) : option A :=
  match p with
  | GRet a => Some a
  | GErr => None
  | GGate _ k => match ws with
                 | (a, b, c, d) :: r => if (feqb (fmul a b) c && feqb (fmul c d) f0)%bool then replay (k a b c d) r else None
                 | [] => None
                 end
  | GAlloc _ k => match ws with (v, _, _, _) :: r => replay (k v) r | [] => None end
  | GAdd lc k => replay (k (lin_spec (fun w => w) lc)) ws
  | GEnf lc k => if feqb (lin_spec (fun w => w) lc) f0 then replay k ws else None
  end.
Lemma replay_holds {F : Field} {A : Type} (p : G F F A) : forall ws r, replay p ws = Some r -> holds p r.
Proof.
  induction p as [a| |w k IH|w k IH|lc k IH|lc k IH]; intros ws r E; cbn [replay holds] in *.
  - congruence.
  - discriminate.
  - destruct ws as [|[[[a b] c] d] ws]; [discriminate|]. destruct (feqb (fmul a b) c) eqn:E1; cbn [andb] in E; [|discriminate].
    destruct (feqb (fmul c d) f0) eqn:E2; [|discriminate]. apply feqb_true in E1, E2. exists a, b, c, d. split; [exact E1|]. split; [exact E2|]. now apply (IH a b c d ws).
  - destruct ws as [|[[[v b] c] d] ws]; [discriminate|]. exists v. now apply (IH v ws).
  - now apply (IH _ ws).
  - destruct (feqb (lin_spec (fun w => w) lc) f0) eqn:E1; [|discriminate]. apply feqb_true in E1. split; [exact E1|]. now apply (IHp ws) || now apply (IH ws).
Qed.

(** ** an application over F2161 whose other curve has these circuits: two points, eight bits *)
Definition ny_r : F2161 * F2161 := (l2161 13, l2161 421).
Definition ny_w : esc_wires F2161 := mk_wires (map (fun j => fe F2161 (nbit 173 j)) (seq 0 8)) big_p [big_q] [ny_r].
Definition is_some {A : Type} (o : option A) : bool := match o with Some _ => true | None => false end.
Lemma ny_holds : forall s, s < 1 -> esc_holds big_zeta 2 ny_w s.
Proof.
  intros s Hs. assert (s = 0) as -> by lia. unfold esc_holds.
  assert (E : is_some (replay (esc_step F2161 F2161 f1 big_zeta false 2 0 (mk_endo F2161 (wi_bits ny_w) None) (pwir (wi_initial ny_w)) (map pwir (wi_inputs ny_w)) (map pwir (wi_ints ny_w)))
     (values_of (esc_step F2161 F2161 f1 big_zeta true 2 0 (ehon F2161 8 173%N) (phon (wi_initial ny_w)) (map phon (wi_inputs ny_w)) (map phon (wi_ints ny_w))))) = true) by (vm_compute; reflexivity).
  destruct (replay _ _) as [[]|] eqn:R; [|discriminate]. exact (replay_holds _ _ _ R).
Qed.
Notation ny_nobj := (nested_obj big_zeta k1 k2 k3 k4 k1 k2 k3 9 8 2).
Notation ny_built := (built F2161 F2161 TA2161 TA2161 9 big_repr big_repr ex_hash (fun a => [big_repr a]) big_from big_of_u ex_hash (fun a => [big_repr a]) big_from big_of_u
  k1 k2 k3 k4 k1 k2 k3 big_b 2 5 5 big_params big_of_u big_tag 8 gen2161 sqrt2161 big_zeta [] big_sobj 1 ny_nobj big_code).
Lemma ny_builds : exists native nested, ny_built native nested.
Proof.
  apply (proj2 (C54_builds F2161 F2161 TA2161 TA2161 9 big_repr big_repr ex_hash (fun a => [big_repr a]) big_from big_of_u ex_hash (fun a => [big_repr a]) big_from big_of_u
    k1 k2 k3 k4 k1 k2 k3 big_b 2 5 5 big_params big_of_u big_tag 8 gen2161 sqrt2161 big_zeta [] big_sobj 1 ny_nobj big_code (ab_new F2161 F2161) eq_refl
    ltac:(cbn; lia) big_places (fun id o _ => nested_obj_is F2161 k1 k2 k3 k4 k1 k2 k3 big_zeta 9 8 2 id o) eq_refl (fun w w' _ _ => big_key_inj w w') (fun w w' _ _ => big_key_inj w w'))).
  split; [exact big_iobj_some|]. split; [intros i; exact (proj1 (code_fits_ok k1 k2 k3 k4 k1 k2 k3 9 6 (big_code (PStep i)) (big_code_fits i)))|].
  split; [|cbn [length Nat.add]; change (Nat.log2_up 15) with 4; change (Nat.log2_up 12) with 4; change (2 ^ 9) with 512; cbn [TA2161 ta_S]; lia].
  assert (Rg : CompileSpec2.registered 512 (esc_stages 8 6) (s_esc_step big_zeta 2 1 1 0)) by (apply fits_b_ok; vm_compute; reflexivity).
  intros id Hid. destruct id as [st| | | | | | | | | | | ]; try (apply mask_some; vm_compute; reflexivity).
  assert (st = 0) as -> by (cbn in Hid; decompose [or] Hid; try discriminate; try contradiction; congruence).
  exact (multi_some k1 k2 k3 k4 k1 k2 k3 9 (esc_stages 8 6) (s_esc_step big_zeta 2 1 1 0) Rg).
Qed.
Notation ny_verify native nested := (verify (H := FieldMod F2161) TA2161 TA2161 9 big_repr big_repr (@feqb F2161) big_gens big_b 2 1 native nested).
(** the step of C54_ex with the nested polynomials of these wires: accepted at every
    challenge, so the hypotheses of C56_verifier are met *)
Example C56_verifier_ex : exists native nested (p : proof F2161 F2161 (FieldMod F2161)), ny_built native nested /\
  wf_proof (2 ^ 9) p /\ N.to_nat (pf_circuit_id p) < 2 ^ ta_S TA2161 /\
  (forall w y z y' z', ny_verify native nested p (Some (l2161 8)) (Some [l2161 12]) w y z y' z' = Some true) /\
  often_nested F2161 F2161 TA2161 TA2161 9 big_repr big_repr big_b 2 1 native nested (FieldMod F2161) (@feqb F2161) big_gens p (Some (l2161 8)) (Some [l2161 12]) all2161 /\
  nested_proved big_zeta (2 ^ 9) 8 2 1 1 6 (nested_poly p) ny_w.
Proof.
  destruct ny_builds as (native & nested & B). exists native, nested.
  assert (Lg : 4 * 2 ^ 9 <= length big_gens) by (unfold big_gens; rewrite repeat_length; apply Nat.leb_le; reflexivity).
  destruct (slots_ok _ _ _ _ _ _ _ _ _ _ _ _ _ _ _ _ _ _ _ _ _ _ _ _ _ _ _ _ _ _ _ _ _ _ _ _ _ _ _ _ B) as (_ & _ & Sx).
  destruct (Sx (uv_el big_u Ux) (uv_el big_u Uy)) as (q & Eq & Wq & _).
  set (pz := simple_proof F2161 F2161 8 big_gens 13%N (pv_out big_l) (pv_out big_r) big_u q []).
  assert (Wz : wf_proof (2 ^ 9) pz) by exact (simple_wf F2161 F2161 8 big_gens Lg 13%N (pv_out big_l) (pv_out big_r) big_u q [] Wq Logic.I).
  destruct (C56_prover F2161 F2161 TA2161 TA2161 9 big_repr big_repr _ _ _ _ _ _ _ _ _ _ _ _ _ _ _ _ _ _ _ _ _ _ _ _ _ _ _ _ k1 k2 k3 k4 k1 k2 k3 big_zeta 2 1 1 eq_refl eq_refl _ native nested B
    (FieldMod F2161) pz ny_w (l2161 7) (l2161 9) [] [[l2161 1; l2161 2]] Wz ltac:(repeat split) ny_holds) as (rp & _ & _ & Ec & _ & Wp & Nh).
  { intros j Hj. do 8 (destruct j as [|j]; [cbn; lia|]). lia. }
  set (p0 := with_nested pz 1 rp) in *.
  assert (Pad : pv_out big_l = AppSpec.padded 2 (l2161 8) [l2161 12]) by reflexivity.
  assert (Pad' : pv_out big_r = AppSpec.padded 2 (l2161 1) []) by (apply map2161; vm_compute; reflexivity).
  destruct (C54_complete _ _ _ _ _ _ _ _ _ _ _ _ _ _ _ _ _ _ _ _ _ _ _ _ _ _ _ _ _ _ _ _ _ _ _ _ _ _ _ _ B (le_n 1)
    (FieldMod F2161) (@feqb F2161) big_gens (fun a b => feqb_true F2161 a b) Lg p0 (l2161 8) [l2161 12] big_u (PStep IRerandomize)
    (map wir (pv_out big_l ++ pv_out big_r ++ pv_out big_l)) big_l big_r big_oe big_ie big_query big_eval (l2161 1) (l2161 2) (l2161 3) (l2161 4) (l2161 5) (l2161 6))
    as (ra & rpre & rie & roe & rq & re & h1 & h2 & ic & oc & cv & _ & Wp' & V); try assumption; try lia.
  - exact C34_big_wf.
  - exact sqrt2161_some.
  - exact sqrt2161_none.
  - exact gen2161_ok.
  - change (13 < 2 ^ 4). cbn; lia.
  - cbn; lia.
  - exact (simple_published F2161 F2161 8 big_gens 13%N (pv_out big_l) (pv_out big_r) big_u q []).
  - exact Logic.I.
  - reflexivity.
  - apply (proj1 (proj2 (C44_rerandomize F2161 2 (l2161 8) (l2161 1) [l2161 12] (le_n 2)))). exists (pv_out big_l). split; [reflexivity|]. now rewrite <- Pad'.
  - rewrite map_map. cbn [ew wir]. rewrite map_id. now rewrite <- Pad.
  - repeat split.
  - repeat split.
  - repeat split.
  - split; [reflexivity|]. repeat constructor.
  - apply C46_big.
  - exact big_step.
  - exact (simple_opens F2161 F2161 8 native big_gens Lg 13%N (pv_out big_l) (pv_out big_r) big_u q [] q Eq (fun _ => eq_refl)).
  - set (p := with_traces p0 ra rpre rie roe rq re h1 h2 ic oc cv) in *. exists p.
    assert (Hc : N.to_nat (pf_circuit_id p) < 2 ^ ta_S TA2161) by (change (13 < 2 ^ 4); cbn; lia).
    assert (L : 4 * 2 ^ 9 <= length all2161) by (unfold all2161; rewrite map_length, seq_length; apply Nat.leb_le; reflexivity).
    assert (Of : often_nested F2161 F2161 TA2161 TA2161 9 big_repr big_repr big_b 2 1 native nested (FieldMod F2161) (@feqb F2161) big_gens p (Some (l2161 8)) (Some [l2161 12]) all2161).
    { split; [exact all2161_nodup|]. split; [exact L|]. intros y _. exists all2161. split; [exact all2161_nodup|]. split; [exact L|]. intros z _. exists f0, f0, f0. apply V. }
    do 5 (split; [assumption|]).
    destruct (C56_verifier F2161 F2161 TA2161 TA2161 9 big_repr big_repr _ _ _ _ _ _ _ _ _ _ _ _ _ _ _ _ _ _ _ _ _ _ _ _ _ _ _ _ k1 k2 k3 k4 k1 k2 k3 big_zeta 2 1 1 eq_refl eq_refl _ native nested B
      (FieldMod F2161) (@feqb F2161) big_gens (fun a b => feqb_true F2161 a b) Lg p _ _ all2161 Wp' Hc Of) as (w & Pw).
    assert (w = ny_w) as ->; [|exact Pw].
    apply (carried_inj (2 ^ 9) 8 1 1 6 (rp NrEndoscalar) (rp NrPoints)); [exact (proj1 Pw)|repeat split|exact (proj1 (proj2 Pw))|exact Ec].
Qed.

(** ** what is not established *)
(** "the carried points lie on the curve" is false: nothing but the steps reads them, and
    the addition formulas hold of any coordinates.  (The source
    leaves this to routing circuits that do not exist yet: internal/endoscalar.rs:285-290.) *)
Definition nx_off : esc_wires F241 := mk_wires (map (fun j => fe F241 (nbit 3 j)) (seq 0 2)) (l241 1, l241 3) [(l241 2, l241 2)] [(l241 145, l241 204)].
Lemma nx_off_holds : forall s, s < 1 -> esc_holds nx_zeta 2 nx_off s.
Proof.
  intros s Hs. assert (s = 0) as -> by lia. unfold esc_holds.
  assert (E : is_some (replay (esc_step F241 F241 f1 nx_zeta false 2 0 (mk_endo F241 (wi_bits nx_off) None) (pwir (wi_initial nx_off)) (map pwir (wi_inputs nx_off)) (map pwir (wi_ints nx_off)))
     (values_of (esc_step F241 F241 f1 nx_zeta true 2 0 (ehon F241 2 3%N) (phon (wi_initial nx_off)) (map phon (wi_inputs nx_off)) (map phon (wi_ints nx_off))))) = true) by (vm_compute; reflexivity).
  destruct (replay _ _) as [[]|] eqn:R; [|discriminate]. exact (replay_holds _ _ _ R).
Qed.
Lemma nx_off_off : ~ on_curve nx_b (wi_initial nx_off).
Proof. unfold on_curve. intros H. apply (f_equal v241) in H. vm_compute in H. discriminate. Qed.
Theorem C56_on_curve_refuted : ~ forall sb nested (rp : nrxid -> poly F241) w, let cy := fun i y => circuit_y F241 TA241 5 nx_repr nested (N.of_nat i) y in
  nx_register = Some sb -> nx_finalize sb = Some nested -> (forall c, wf 0 (4 * 2 ^ 5) (rp c)) -> nested_accepted (2 ^ 5) 1 cy rp all241 ->
  nested_proved nx_zeta (2 ^ 5) 2 2 1 1 6 rp w -> on_curve nx_b (wi_initial w).
Proof.
  intros H. destruct C56_builds_ex as (sb & nested & Er & Ef).
  destruct (C56_complete F241 TA241 5 nx_repr _ _ _ _ c1 c2 c3 c4 c1 c2 c3 nx_zeta 2 2 1 1 eq_refl eq_refl sb nested nx_s32 Ef eq_refl nx_inj Er
    nx_off (l241 7) (l241 8) [] [] ltac:(repeat split) nx_off_holds) as (rp & Wp & _ & _ & Ec & _ & Pa).
  { intros j Hj. do 8 (destruct j as [|j]; [cbn; lia|]). lia. }
  assert (L : 4 * 2 ^ 5 <= length all241) by (unfold all241; rewrite map_length, seq_length; cbn; lia).
  assert (Acc : nested_accepted (2 ^ 5) 1 (fun i y => circuit_y F241 TA241 5 nx_repr nested (N.of_nat i) y) rp all241).
  { split; [exact all241_nodup|]. split; [exact L|]. intros y _. exists all241. split; [exact all241_nodup|]. split; [exact L|]. intros z _. exact (Pa y z). }
  destruct (C56_sound F241 TA241 5 nx_repr _ _ _ _ c1 c2 c3 c4 c1 c2 c3 nx_zeta 2 2 1 1 eq_refl eq_refl sb nested nx_s32 Ef eq_refl nx_inj Er rp all241 Wp Acc) as (w & Pw).
  assert (w = nx_off) as ->.
  { apply (carried_inj (2 ^ 5) 2 1 1 6 (rp NrEndoscalar) (rp NrPoints)); [exact (proj1 Pw)|repeat split|exact (proj1 (proj2 Pw))|exact Ec]. }
  exact (nx_off_off (H sb nested rp nx_off Er Ef Wp Acc Pw)).
Qed.
Print Assumptions C56_on_curve_refuted.
