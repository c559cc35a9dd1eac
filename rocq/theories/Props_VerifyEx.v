(** C54, C55: an application over F2161 and F97 with a proof that the verifier accepts
    at every challenge. *)
From Coq Require Import ZArith List Arith NArith Bool Lia Ring Field.
From Verif Require Import FieldDef ModDef GF ArithModel ArithSpec ArithProofs FFTModel FFTProofs SparseModel SparseSpec SparseProofs SparseProofs2 TModel TProofs
  FoldModel FoldSpec ClaimModel CircModel CircSpec SyModel SProofs TraceModel CircProofs CircProofs2 SyProofs SyProofs2 SatProofs GadgetModel GadgetSpec SpongeModel SpongeSpec StageModel StageSpec StageProofs RegModel RegSpec RegProofs RegProofs2
  EndoSpec PcdModel PcdSpec PcdProofs2 RecModel RecSpec CompileModel CompileSpec CompileSpec2 CompileProofs CompileProofs2 RecStageModel RecStageSpec RecStageProofs
  ParProofs2 AppModel AppSpec AppProofs Props_Arith Props_Reg Props_Stage Props_App Props_Comp Props_Rec Props_Step Props_StepEx
  VerifyModel VerifySpec VerifySpec2 VerifyProofs VerifyProofs2 VerifyProofs3 VerifyProofs4 VerifyProofs5 VerifyProofs6 VerifyProofs7 VerifyProofs8 VerifyProofs9 VerifyProofs10 Props_Verify.
Import ListNotations.
Local Open Scope nat_scope.

(** ** the nested side: one step whose circuit has no gates, and masks that allow
    everything *)
Definition nil_circuit {F : Field} : circuit F := fun W one => GRet [].
Definition nil_nobj {F : Field} (k : F) (lg : nat) (id : ncid) : option (cobj F) :=
  match id with
  | NStep _ => prog_cobj k k k k k k k lg (cbody nil_circuit) []
  | _ => Some (mask_cobj F (2 ^ lg) (1, 2 ^ lg - 1))
  end.
Lemma nil_generic {F : Field} : generic (@nil_circuit F).
Proof. intros W1 W2 o1 o2 RW _. constructor. constructor. Qed.
Lemma nil_fits {F : Field} lg : fits (F := F) (2 ^ (S lg)) (cbody nil_circuit) [].
Proof. unfold fits. cbn. pose proof (Nat.pow_nonzero 2 lg). lia. Qed.
Lemma nil_is {F : Field} (k : F) lg id o : nil_nobj k lg id = Some o -> exists s, obj_is lg o s.
Proof.
  assert (X : mask_cobj F (2 ^ lg) (1, 2 ^ lg - 1) = o -> exists s, obj_is lg o s).
  { intros <-. pose proof (Nat.pow_nonzero 2 lg). apply mask_is; cbn [fst snd]; lia. }
  unfold nil_nobj. intros E. destruct id; try (apply X; congruence).
  destruct (circuit_owned (@nil_circuit F) [] nil_generic eq_refl) as [O Hh]. destruct (hides_split _ _ Hh) as [H1 H2].
  eexists. exact (prog_cobj_is F k k k k k k k lg _ _ _ E O H1 H2).
Qed.
Section Free.
Variable F : Field.
Add Field FFvx1 : (f_theory F).
Lemma free_unmasked (n : nat) (r : poly F) y : 0 < n -> wf 0 (4 * n) r -> unmasked n (Some (1, n - 1)) r y.
Proof.
  intros Hn W. destruct (project_ok F n 1 (n - 1) (le_n 1) ltac:(lia) y) as (q & Eq & Wq & Cq). exists (1, n - 1), q. split; [reflexivity|]. split; [exact Eq|].
  assert (Y0 : forall a : F, fmul a f0 = f0) by (intros a; ring).
  rewrite revdot_ok by assumption. apply fsum_zero. intros k Hk. rewrite Cq.
  assert (A : 4 * n - 1 - k < 4 * n) by lia. apply Nat.ltb_lt in A. rewrite A.
  assert (G : active 1 (n - 1) (gate_of n (4 * n - 1 - k)) = true).
  { assert (gate_of n (4 * n - 1 - k) < n).
    { unfold gate_of. repeat match goal with |- context[?a <? ?b] => destruct (Nat.ltb_spec a b) end; lia. }
    unfold active. destruct (gate_of n (4 * n - 1 - k)) as [|g] eqn:Eg; [reflexivity|]. cbn [Nat.eqb orb]. apply andb_true_iff. split; [apply Nat.leb_le; lia|apply Nat.ltb_lt; lia]. }
  rewrite G. apply Y0.
Qed.
Lemma fsum_first N (f : nat -> F) : 0 < N -> (forall k, 0 < k -> k < N -> f k = f0) -> fsum N f = f 0.
Proof.
  induction N as [|m IH]; [lia|]. intros _ Hf. cbn [fsum]. destruct m as [|m]; [cbn [fsum]; ring|].
  rewrite IH by (try lia; intros; apply Hf; lia). rewrite (Hf (S m)) by lia. ring.
Qed.
End Free.

Section Simple.
Variables (F Fs : Field) (T : TwoAdic F) (Ts : TwoAdic Fs) (lg : nat).
Add Field FFvx2 : (f_theory F).
Add Field FFvx3 : (f_theory Fs).
Variables (repr : F -> N) (reprs : Fs -> N).
Variables (hash : list N -> list N) (to_bytes : F -> list N) (from_uniform : list N -> F) (f_of_u64 : N -> F).
Variables (hash' : list N -> list N) (to_bytes' : Fs -> list N) (from_uniform' : list N -> Fs) (f_of_u64' : N -> Fs).
Variables (x0 x1 x2 x3 yc onec hc : F) (cb : F) (hs M N' : nat) (P : pparams F) (of_u : N -> F) (tag : list N)
  (nbits : nat) (gen : F) (fsqrt : F -> option F) (zeta : F).
Variables (l : list (step F)) (sobj : istep -> option (cobj F)) (k' : Fs).
Variable code : place -> circuit F.
Variables (native : registry F) (nested : registry Fs).
Hypothesis B : built F Fs T Ts (S lg) repr reprs hash to_bytes from_uniform f_of_u64 hash' to_bytes' from_uniform' f_of_u64'
  x0 x1 x2 x3 yc onec hc cb hs M N' P of_u tag nbits gen fsqrt zeta l sobj 1 (nil_nobj k' (S lg)) code native nested.
Local Notation n := (2 ^ S lg).
Variable gens : list (FieldMod F).
Hypothesis Hgens : 4 * n <= length gens.

(** a proof with the given headers and instance; its native traces are still empty *)
Definition simple_proof (id : N) (lh rh : list F) (u : uvals F) (rxy : poly F) (step : poly Fs) : proof F Fs (FieldMod F) :=
  mk_proof id lh rh [] [] [] [] [] [] [] [] [] [] [] [(0, [uv_el u Uc])] [(4 * n - 1, [f1])] (uv_el u Uc) rxy
    [(0, [uv_el u Uv])] (fmul (uv_el u Uv) (nth 0 gens f0) : FieldMod F) (uv_el u Uv) [step] [] []
    (fun f => mk_bridge [] (Some (uv_pt u f)))
    (fun c => uv_el u (match c with Ch_w => Uw | Ch_y => Uy | Ch_z => Uz | Ch_mu => Umu | Ch_nu => Unu | Ch_mu' => Umu' | Ch_nu' => Unu'
                       | Ch_x => Ux | Ch_alpha => Ualpha | Ch_u => Uu | Ch_pre_beta => Upre_beta end)).

Lemma simple_published id lh rh u rxy step : published (simple_proof id lh rh u rxy step) u.
Proof. unfold published. cbn. repeat split. Qed.
Lemma simple_wf id lh rh u rxy step : wf 0 (4 * n) rxy -> wf 0 (4 * n) step -> wf_proof n (simple_proof id lh rh u rxy step).
Proof.
  intros W W'. assert (0 < n) by (pose proof (Nat.pow_nonzero 2 (S lg)); lia).
  assert (Z : forall v : F, wf 0 (4 * n) [(0, [v])]) by (intros v; cbn [wf length]; repeat split; [lia|discriminate|lia]).
  split; [|split; [|split; [exact W|exact (Z _)]]].
  - intros c. destruct c as [| |i]; [exact (Z _)|cbn [native_rx simple_proof pf_b wf length]; repeat split; [lia|discriminate|lia]|destruct i; exact Logic.I].
  - intros c. destruct c; try exact Logic.I. cbn [nested_poly simple_proof pf_step_rxs]. match goal with |- wf _ _ (nth ?s _ _) => destruct s as [|[|s']] end; [exact W'|exact Logic.I|exact Logic.I].
Qed.
Lemma one_coeff {K : Field} (v : K) k : coeff_at [(0, [v])] k = if k =? 0 then v else f0.
Proof. cbn [coeff_at length]. destruct k; reflexivity. Qed.
Lemma simple_opens id lh rh u rxy step q : reg_xy F 1 (S lg) native (uv_el u Ux) (uv_el u Uy) = Some q -> (forall e, coeff_at rxy e = coeff_at q e) ->
  opens n gens (reg_xy F 1 (S lg) native) (simple_proof id lh rh u rxy step).
Proof.
  intros Eq Cq. assert (Hn : 0 < n) by (pose proof (Nat.pow_nonzero 2 (S lg)); lia).
  unfold opens. cbn [simple_proof pf_a pf_b pf_c pf_p pf_chal pf_v pf_p_commitment pf_registry_xy]. split; [|split; [|split]].
  - rewrite (fsum_first F); [|lia|intros k Hk _; rewrite one_coeff; destruct k; [lia|]; cbn [Nat.eqb]; ring].
    rewrite one_coeff. cbn [Nat.eqb coeff_at length]. rewrite Nat.sub_0_r, Nat.leb_refl.
    replace (4 * n - 1 <? 4 * n - 1 + 1) with true by (symmetry; apply Nat.ltb_lt; lia). cbn [andb]. rewrite Nat.sub_diag. cbn [nth]. ring.
  - rewrite (fsum_first F); [|lia|intros k Hk _; rewrite one_coeff; destruct k; [lia|]; cbn [Nat.eqb]; ring].
    rewrite one_coeff. cbn [Nat.eqb fpow]. ring.
  - assert (X : forall N (f : nat -> F), msum (M := FieldMod F) N f = fsum N f) by (induction N as [|m IH]; intros f; [reflexivity|cbn [msum fsum]; rewrite IH; reflexivity]).
    rewrite X. rewrite (fsum_first F); [rewrite one_coeff; reflexivity|lia|].
    intros k Hk _. rewrite one_coeff. destruct k; [lia|]. cbn [Nat.eqb]. apply (mscale_0 F (FieldMod F)).
  - exists q. split; [exact Eq|exact Cq].
Qed.
Lemma simple_step : exists step, wf 0 (4 * n) step /\ forall id lh rh u rxy,
  nested_honest n 1 (fun i y => circuit_y Fs Ts (S lg) reprs nested (N.of_nat i) y) (simple_proof id lh rh u rxy step).
Proof.
  assert (Hn : 0 < n) by (pose proof (Nat.pow_nonzero 2 (S lg)); lia).
  destruct (C51_complete Fs n nil_circuit [] [] f1 nil_generic eq_refl (nil_fits lg)) as (r & Wr & _ & Cr & Pr); [constructor; reflexivity|].
  cbn [map] in Pr. exists r. split; [exact Wr|]. intros id lh rh u rxy.
  destruct (nested_builder _ _ _ _ _ _ _ _ _ _ _ _ _ _ _ _ _ _ _ _ _ _ _ _ _ _ _ _ _ _ _ _ _ _ _ _ _ _ _ _ B) as (sb & Ef & Lg & Lo & Sl & _).
  destruct (bl_two _ _ _ _ _ _ _ _ _ _ _ _ _ _ _ _ _ _ _ _ _ _ _ _ _ _ _ _ _ _ _ _ _ _ _ _ _ _ _ _ B) as [_ S32].
  pose proof (bl_key' _ _ _ _ _ _ _ _ _ _ _ _ _ _ _ _ _ _ _ _ _ _ _ _ _ _ _ _ _ _ _ _ _ _ _ _ _ _ _ _ B) as K. rewrite <- Lg in K.
  split; [cbn; lia|]. intros y z sy Hsy.
  assert (Ms : forall i, 0 < i < 12 -> forall rs, Forall (wf 0 (4 * n)) rs -> Forall (fun r => coeff_at r 0 = f0) rs ->
    fsum (4 * n) (fun k => fmul (hfold (length rs) z (fun i => coeff_at (nth i rs []) k)) (coeff_at (sy i) (4 * n - 1 - k))) = f0).
  { intros i Hi rs Wrs Crs. apply (bond_join Fs n rs (sy i) z). intros j Hj. rewrite Forall_forall in Wrs, Crs.
    assert (E : nth_error (reg_order sb) i = Some (mask_cobj Fs n (1, n - 1))).
    { assert (X : exists id, In id (ncid_all 1) /\ nested_circuit_index 1 id = Some i /\ nil_nobj k' (S lg) id = Some (mask_cobj Fs n (1, n - 1))).
      { exists (nth i (ncid_all 1) NEndoscalar). do 12 (destruct i as [|i]; [try lia; cbn; repeat split; tauto|]). lia. }
      destruct X as (id' & I' & Ei & Eo). destruct (Sl id' I') as (i' & Ei' & En & _). rewrite Ei in Ei'. injection Ei' as <-. congruence. }
    destruct (mask_slot Fs Ts (S lg) reprs hash' to_bytes' from_uniform' f_of_u64' S32 sb nested Ef K i (1, n - 1) E (le_n 1) ltac:(cbn [fst snd]; lia) y) as (q & Eq & Wq & Es & Ws & Km).
    rewrite Hsy in Es by lia. injection Es as Es. rewrite Es.
    apply (mask_complete Fs n _ (1, n - 1) _ q _ y Hn (Wrs _ (nth_In _ _ Hj)) Wq Eq Km).
    - rewrite (Crs _ (nth_In _ _ Hj)). ring.
    - apply free_unmasked; [exact Hn|]. apply Wrs, nth_In, Hj. }
  assert (C0 : circ_sum Fs n z r (sy 0) = f1).
  { destruct (Sl (NStep 0) ltac:(cbn; tauto)) as (i & Ei & En & Eo). assert (i = 0) as -> by (cbn in Ei; congruence).
    destruct (nil_nobj k' (S lg) (NStep 0)) as [o|] eqn:Eno; [|congruence]. cbn [nil_nobj] in Eno.
    destruct (circuit_owned (@nil_circuit Fs) [] nil_generic eq_refl) as [O _].
    destruct (circ_slot Fs Ts (S lg) reprs hash' to_bytes' from_uniform' f_of_u64' S32 sb nested Ef K k' k' k' k' k' k' k' 0 o _ [] En Eno O) as [_ Hy].
    destruct (Hy y) as (s & Es & Ws & Ey & _ & Km). rewrite Hsy in Ey by lia. injection Ey as Ey. rewrite Ey.
    rewrite (keyed_complete Fs n _ _ [] [] r s _ y z Hn Wr Ws Es Km); [rewrite ky_ok; cbn; ring|rewrite Cr; ring|apply Pr]. }
  unfold nested_own, nested_bond. cbn [seq map flat_map app]. repeat apply Forall_cons; [..|apply Forall_nil].
  - unfold nclaim_holds. cbn [fst snd na_coeff nb_coeff nested_slot nested_poly simple_proof pf_step_rxs pf_endoscalar_rx pf_points_rx nth map lsum fold_right coeff_at].
    rewrite <- C0. unfold circ_sum. apply fsum_ext. intros e _. ring_simplify. reflexivity.
  - apply (Ms 1); [lia|repeat constructor|repeat constructor].
  - apply (Ms 2); [lia|repeat constructor|repeat constructor].
  - apply (Ms 3); [lia|repeat constructor; exact Wr|repeat constructor; exact Cr].
  - apply (Ms 4); [lia|repeat constructor|repeat constructor].
  - apply (Ms 5); [lia|repeat constructor|repeat constructor].
  - apply (Ms 6); [lia|repeat constructor|repeat constructor].
  - apply (Ms 7); [lia|repeat constructor|repeat constructor].
  - apply (Ms 8); [lia|repeat constructor|repeat constructor].
  - apply (Ms 9); [lia|repeat constructor|repeat constructor].
  - apply (Ms 10); [lia|repeat constructor|repeat constructor].
  - apply (Ms 11); [lia|repeat constructor|repeat constructor].
Qed.
End Simple.

(** ** the application: no steps of its own, so that the registry has the thirteen
    recursion circuits and the two internal steps *)
Lemma triv_generic {F : Field} hs (t : F) : generic (fun W one => trivial_circuit F W one false hs (Some t)).
Proof. intros W1 W2 o1 o2 RW Ho. apply adapter_write_p; try exact Ho; constructor; constructor. Qed.
Definition big_code (p : place) : circuit F2161 :=
  match p with
  | PStep IRerandomize => re_circuit 2 (l2161 8) (l2161 1) [l2161 12]
  | _ => fun W one => trivial_circuit F2161 W one false 2 (Some (l2161 1))
  end.
Lemma big_generic p : generic (big_code p).
Proof. destruct p as [| [] |]; try apply triv_generic. apply re_generic. Qed.
Definition code_obj {F : Field} (x0 x1 x2 x3 yc onec hc : F) (lg : nat) (c : circuit F) : option (cobj F) :=
  match couts c with Some outs => prog_cobj x0 x1 x2 x3 yc onec hc lg (cbody c) outs | None => None end.
Definition code_fits {F : Field} (lg m : nat) (c : circuit F) : bool :=
  match couts c with
  | Some o => (length o =? m) && Nat.leb (list_sum (map fst (sizes (orchestrate (cbody c) o)))) (2 ^ lg) && Nat.ltb (list_sum (map snd (sizes (orchestrate (cbody c) o)))) (4 * 2 ^ lg)
  | None => false
  end.
Lemma code_fits_ok {F : Field} (x0 x1 x2 x3 yc onec hc : F) lg m (c : circuit F) : code_fits lg m c = true ->
  code_obj x0 x1 x2 x3 yc onec hc lg c <> None /\ exists outs, couts c = Some outs /\ length outs = m /\ code_obj x0 x1 x2 x3 yc onec hc lg c = prog_cobj x0 x1 x2 x3 yc onec hc lg (cbody c) outs.
Proof.
  unfold code_fits, code_obj. destruct (couts c) as [o|]; [|discriminate]. intros H. apply andb_true_iff in H. destruct H as [H H3]. apply andb_true_iff in H. destruct H as [H1 H2].
  apply Nat.eqb_eq in H1. apply Nat.leb_le in H2. apply Nat.ltb_lt in H3. split; [|exists o; auto].
  apply (C21_objects F x0 x1 x2 x3 yc onec hc lg (cbody c) o). split; assumption.
Qed.
Lemma multi_some {F : Field} (x0 x1 x2 x3 yc onec hc : F) lg stages (c : staged F) : CompileSpec2.registered (2 ^ lg) stages c -> multi_obj x0 x1 x2 x3 yc onec hc lg stages c <> None.
Proof.
  intros (body & outs & S & Hf). unfold multi_obj. rewrite S. cbn [obind fst snd]. apply (C21_objects F x0 x1 x2 x3 yc onec hc lg body outs). exact Hf.
Qed.
Lemma mask_some {F : Field} lg mk : (match mk with Some _ => true | None => false end) = true -> mask_obj (F := F) lg mk <> None.
Proof. destruct mk; [discriminate|discriminate]. Qed.

Definition k1 := l2161 11. Definition k2 := l2161 13. Definition k3 := l2161 17. Definition k4 := l2161 19.
Definition big_sobj (i : istep) : option (cobj F2161) := code_obj k1 k2 k3 k4 k1 k2 k3 9 (big_code (PStep i)).
Lemma big_code_fits i : code_fits 9 6 (big_code (PStep i)) = true.
Proof. destruct i; vm_compute; reflexivity. Qed.
Definition big_repr (a : F2161) : N := Z.to_N (v2161 a).
Section KeyInj.
Add Field FFvx5 : (f_theory F2161).
Lemma big_key_inj : forall w w' : F2161, omega_key F2161 big_repr w = omega_key F2161 big_repr w' -> w = w'.
Proof.
  intros w w' E. unfold omega_key, big_repr in E. cbv zeta in E.
  assert (B : forall a : F2161, (0 <= v2161 a < 2161)%Z) by (intros a; apply (val_range 2161)).
  rewrite !N.mod_small in E by (match goal with |- (Z.to_N (v2161 ?a) < _)%N => pose proof (B a); lia end).
  assert (Q : v2161 (w + w + (w + w) + w)%F = v2161 (w' + w' + (w' + w') + w')%F).
  { pose proof (B (w + w + (w + w) + w)%F). pose proof (B (w' + w' + (w' + w') + w')%F). lia. }
  apply gf_ext in Q.
  assert (I5 : (l2161 1729 * (f1 + f1 + (f1 + f1) + f1))%F = f1) by (apply gf_ext; vm_compute; reflexivity).
  replace w with (l2161 1729 * (f1 + f1 + (f1 + f1) + f1) * w)%F by (rewrite I5; ring).
  replace w' with (l2161 1729 * (f1 + f1 + (f1 + f1) + f1) * w')%F by (rewrite I5; ring).
  transitivity (l2161 1729 * (w + w + (w + w) + w))%F; [ring|]. rewrite Q. ring.
Qed.
End KeyInj.

Definition big_iobj : nat -> icid -> option (cobj F2161) := iobj F2161 TA2161 9 k1 k2 k3 k4 k1 k2 k3 big_b 2 5 5 big_params big_of_u big_tag 8 gen2161 sqrt2161 big_zeta.
Lemma big_iobj_some id : big_iobj 4 id <> None.
Proof.
  destruct big_fits as (G1 & G2 & G3 & G4 & G5). unfold big_iobj, iobj.
  destruct id; cbn [native_obj]; try (apply multi_some; assumption); apply mask_some; vm_compute; reflexivity.
Qed.
Definition big_from (l : list N) : F2161 := l2161 (Z.of_N (hd 0%N l)).
Notation big_built := (built F2161 F97 TA2161 TA97 9 big_repr ex_repr ex_hash (fun a => [big_repr a]) big_from big_of_u ex_hash (fun a => [ex_repr a]) ex_from (fun n => l97 (Z.of_N n))
  k1 k2 k3 k4 k1 k2 k3 big_b 2 5 5 big_params big_of_u big_tag 8 gen2161 sqrt2161 big_zeta [] big_sobj 1 (nil_nobj (l97 11) 9) big_code).
Lemma big_places p : step_place 0 p -> generic (big_code p) /\ exists outs, couts (big_code p) = Some outs /\ length outs = 3 * 2 /\
  place_obj [] (big_iobj 4) big_sobj p = prog_cobj k1 k2 k3 k4 k1 k2 k3 9 (cbody (big_code p)) outs.
Proof.
  intros Sp. split; [apply big_generic|]. destruct p as [id|i|j]; cbn [step_place] in Sp; [tauto| |lia].
  exact (proj2 (code_fits_ok k1 k2 k3 k4 k1 k2 k3 9 6 (big_code (PStep i)) (big_code_fits i))).
Qed.
Example C54_builds_ex : exists native nested, big_built native nested.
Proof.
  apply (proj2 (C54_builds F2161 F97 TA2161 TA97 9 big_repr ex_repr ex_hash (fun a => [big_repr a]) big_from big_of_u ex_hash (fun a => [ex_repr a]) ex_from (fun n => l97 (Z.of_N n))
    k1 k2 k3 k4 k1 k2 k3 big_b 2 5 5 big_params big_of_u big_tag 8 gen2161 sqrt2161 big_zeta [] big_sobj 1 (nil_nobj (l97 11) 9) big_code (ab_new F2161 F97) eq_refl
    ltac:(cbn; lia) big_places (fun id o _ => nil_is (l97 11) 9 id o) eq_refl (fun w w' _ _ => big_key_inj w w') (fun w w' _ _ => ex_key_inj w w'))).
  split; [exact big_iobj_some|]. split; [intros i; exact (proj1 (code_fits_ok k1 k2 k3 k4 k1 k2 k3 9 6 (big_code (PStep i)) (big_code_fits i)))|].
  split; [|cbn [length Nat.add]; change (Nat.log2_up 15) with 4; change (Nat.log2_up 12) with 4; change (2 ^ 9) with 512; cbn [TA2161 TA97 ta_S]; lia].
  intros id _. destruct id; discriminate.
Qed.
Definition big_gens : list (FieldMod F2161) := repeat (l2161 5) 2048.
Notation big_verify native nested := (verify (H := FieldMod F2161) TA2161 TA97 9 big_repr ex_repr (@feqb F2161) big_gens big_b 2 1 native nested).
(** the step of C53_ex as a proof of the rerandomisation step: it is accepted at every
    challenge, so the hypotheses of the soundness theorems are met with every element
    of the field a challenge *)
Example C54_ex : exists native nested (p : proof F2161 F97 (FieldMod F2161)), big_built native nested /\
  wf_proof (2 ^ 9) p /\ N.to_nat (pf_circuit_id p) = 13 /\ 13 < 2 ^ ta_S TA2161 /\
  (forall w y z y' z', big_verify native nested p (Some (l2161 8)) (Some [l2161 12]) w y z y' z' = Some true) /\
  often F2161 F97 TA2161 TA97 9 big_repr ex_repr big_b 2 1 native nested (FieldMod F2161) (@feqb F2161) big_gens p (Some (l2161 8)) (Some [l2161 12]) all2161 /\
  Some (l2161 8) <> Some f0.
Proof.
  destruct C54_builds_ex as (native & nested & B). exists native, nested.
  assert (Lg : 4 * 2 ^ 9 <= length big_gens) by (unfold big_gens; rewrite repeat_length; apply Nat.leb_le; reflexivity).
  destruct (slots_ok _ _ _ _ _ _ _ _ _ _ _ _ _ _ _ _ _ _ _ _ _ _ _ _ _ _ _ _ _ _ _ _ _ _ _ _ _ _ _ _ B) as (_ & _ & Sx).
  destruct (Sx (uv_el big_u Ux) (uv_el big_u Uy)) as (q & Eq & Wq & _).
  destruct (simple_step F2161 F97 TA2161 TA97 8 _ _ _ _ _ _ _ _ _ _ _ _ _ _ _ _ _ _ _ _ _ _ _ _ _ _ _ _ _ _ _ _ _ _ B big_gens Lg) as (st & Wst & Nst).
  set (p0 := simple_proof F2161 F97 8 big_gens 13%N (pv_out big_l) (pv_out big_r) big_u q st).
  assert (Wp : wf_proof (2 ^ 9) p0) by exact (simple_wf F2161 F97 8 big_gens Lg 13%N (pv_out big_l) (pv_out big_r) big_u q st Wq Wst).
  assert (Pad : pv_out big_l = AppSpec.padded 2 (l2161 8) [l2161 12]) by reflexivity.
  assert (Pad' : pv_out big_r = AppSpec.padded 2 (l2161 1) []) by (apply map2161; vm_compute; reflexivity).
  destruct (C54_complete _ _ _ _ _ _ _ _ _ _ _ _ _ _ _ _ _ _ _ _ _ _ _ _ _ _ _ _ _ _ _ _ _ _ _ _ _ _ _ _ B (le_n 1)
    (FieldMod F2161) (@feqb F2161) big_gens (fun a b => feqb_true F2161 a b) Lg p0 (l2161 8) [l2161 12] big_u (PStep IRerandomize)
    (map wir (pv_out big_l ++ pv_out big_r ++ pv_out big_l)) big_l big_r big_oe big_ie big_query big_eval (l2161 1) (l2161 2) (l2161 3) (l2161 4) (l2161 5) (l2161 6))
    as (ra & rpre & rie & roe & rq & re & h1 & h2 & ic & oc & cv & _ & Wp' & V); try assumption; try lia.
  - exact C34_big_wf.
  - exact sqrt2161_some.
  - exact sqrt2161_none.
  - exact gen2161_ok.
  - change (13 < 2 ^ 4). cbn; lia.
  - cbn; lia.
  - apply simple_published.
  - exact Logic.I.
  - reflexivity.
  - apply (proj1 (proj2 (C44_rerandomize F2161 2 (l2161 8) (l2161 1) [l2161 12] (le_n 2)))). exists (pv_out big_l). split; [reflexivity|]. now rewrite <- Pad'.
  - rewrite map_map. cbn [ew wir]. rewrite map_id. now rewrite <- Pad.
  - repeat split.
  - repeat split.
  - repeat split.
  - split; [reflexivity|]. repeat constructor.
  - apply C46_big.
  - exact big_step.
  - apply (simple_opens F2161 F97 8 native big_gens Lg _ _ _ _ _ _ q Eq). reflexivity.
  - apply Nst.
  - match type of V with forall w y z y' z', VerifyModel.verify _ _ _ _ _ _ _ _ _ _ _ _ ?p _ _ _ _ _ _ _ = _ => exists p end.
    split; [exact B|]. split; [exact Wp'|]. split; [reflexivity|]. split; [change (13 < 2 ^ 4); cbn; lia|]. split; [exact V|]. split.
    + assert (L : 4 * 2 ^ 9 <= length all2161) by (unfold all2161; rewrite map_length, seq_length; apply Nat.leb_le; reflexivity).
      split; [exact all2161_nodup|]. split; [exact L|]. intros y _. exists all2161. split; [exact all2161_nodup|]. split; [exact L|].
      intros z _. exists f0, f0, f0. apply V.
    + intros E. injection E. intros E'. vm_compute in E'. discriminate.
Qed.
