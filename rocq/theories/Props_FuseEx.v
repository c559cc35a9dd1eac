(** C57: an application with the nine endoscaling steps of the source, and the prover's
    step on its trivial proofs. *)
From Coq Require Import ZArith List Arith NArith Bool Lia Ring Field.
From Verif Require Import FieldDef ModDef GF ArithModel FFTModel SparseModel SparseSpec CircModel CircSpec GadgetModel GadgetSpec GadgetProofs PointProofs SpongeModel SpongeSpec
  StageModel StageSpec RegModel RegSpec PointSpec EndoSpec EndoProofs EscModel EscSpec EscProofs PcdModel PcdSpec RecModel RecSpec CompileModel CompileSpec CompileSpec2 CompileProofs CompileProofs2
  AppModel AppSpec AppProofs Props_Arith Props_Reg Props_Stage Props_App Props_Comp Props_Esc Props_Rec Props_Step Props_StepEx VerifyModel VerifySpec VerifySpec2 VerifyProofs VerifyProofs4 VerifyProofs8 VerifyProofs10 Props_Verify Props_VerifyEx
  NestedModel NestedSpec NestedProofs Props_Nested Props_NestedEx RecStageModel RecStageSpec FuseModel FuseSpec FuseProofs FuseProofs3 FuseProofs4 FuseProofs5 Props_Fuse.
Import ListNotations.
Local Open Scope nat_scope.

(** ** a stand-in for the host curve *)
(** The step circuits assume that the points of the stage lie on the curve.  The pair
    (0, 0) lies on no curve with b <> 0, and there the relations of the incomplete
    additions leave the slopes free: with every point at (0, 0) all nine steps can be
    satisfied, whatever the endoscalar.  (A curve over a field with the two-adicity of
    both registries would do as well, but is too large to compute with here.) *)
Section Origin.
  Variables (F : Field) (zeta : F).
  Add Field FFu12 : (f_theory F).
  Open Scope f_scope.
  Local Notation o := (0, 0).
  (* the outcome of a scaling: a point of y^2 = x^3 *)
  Local Notation away := (1, - (1)).
  Lemma origin_select (b : bool) : (if b then zeta * 0 else 0) = 0 :> F.
  Proof. destruct b; [ring|reflexivity]. Qed.
  Lemma origin_negate (b : bool) : (if b then - 0 else 0) = 0 :> F.
  Proof. destruct b; [ring|reflexivity]. Qed.
  Lemma origin_go : forall bs : list bool, Nat.even (length bs) = true -> bs <> [] ->
    holds (en_scale_go F F zeta (map (fun b => bwir (fe F b)) bs) (pwir o) (pwir o)) (pwir away).
  Proof.
    induction bs as [|c|nb eb bs IH] using pair_ind; intros Ev Ne; [now elim Ne|discriminate|]. clear Ne. cbn [map en_scale_go].
    apply holds_bind. exists (pwir o). split; [apply p_cond_negate_w; cbn [fst snd]; now rewrite origin_negate|].
    apply holds_bind. exists (pwir o). split; [apply p_cond_endo_w; cbn [fst snd]; now rewrite origin_select|].
    destruct bs as [|c bs'].
    - apply holds_bind. exists (pwir away). split; [|reflexivity]. apply p_da_raw. exists 0, 1. unfold da_out. cbn [fst snd]. split; [ring|]. split; [ring|].
      f_equal. f_equal; ring.
    - apply holds_bind. exists (pwir o). split; [|apply IH; [exact Ev|discriminate]]. apply p_da_raw. exists 0, 0. unfold da_out. cbn [fst snd]. split; [ring|]. split; [ring|].
      f_equal. f_equal; ring.
  Qed.
  Lemma origin_scale (bs : list bool) : Nat.even (length bs) = true -> bs <> [] -> holds (en_group_scale F F zeta (ewir F bs) (pwir o)) (pwir away).
  Proof.
    intros Ev Ne. unfold en_group_scale. rewrite en_bools_w.
    apply holds_bind. exists (pwir o). split; [apply p_endo_w; cbn [fst snd]; f_equal; f_equal; ring|].
    apply holds_bind. exists (pwir o, None). split.
    { change (@None (elem F F)) with (nz_w F None). apply p_add_raw. exists 0. cbn [fst snd option_map nz_w]. split; [ring|]. do 2 f_equal. f_equal; ring. }
    cbn [fst]. apply holds_bind. exists (pwir o). split; [|now apply origin_go].
    apply p_double_raw. exists 0. cbn [fst snd]. split; [ring|]. f_equal. f_equal; ring.
  Qed.
  Lemma origin_loop (bs : list bool) : Nat.even (length bs) = true -> bs <> [] -> forall k z, exists d, d <> 0 /\
    holds (esc_loop F F zeta (ewir F bs) (repeat (pwir o) k) (pwir o) (wir z)) (pwir o, wir (z * d)).
  Proof.
    intros Ev Ne. induction k as [|k IH]; intros z.
    - exists 1. split; [apply f1_neq_0|]. cbn [repeat esc_loop]. apply ret_w. do 2 f_equal. ring.
    - destruct (IH (z * (0 - 1))) as (d & Hd & Hh). exists (- d). split.
      { intros E. apply Hd. transitivity (- - d); [ring|]. rewrite E. ring. }
      cbn [repeat esc_loop]. apply holds_bind. exists (pwir away). split; [now apply origin_scale|].
      apply holds_bind. exists (pwir o, Some (wir (z * (0 - 1)))). split.
      { change (Some (wir z)) with (nz_w F (Some z)). apply p_add_raw. exists (- (1)). cbn [fst snd option_map nz_w]. split; [ring|]. do 2 f_equal. f_equal; ring. }
      cbn [fst snd]. replace (z * - d) with (z * (0 - 1) * d) by ring. exact Hh.
  Qed.
  Lemma origin_steps (bs : list bool) : Nat.even (length bs) = true -> bs <> [] -> forall s, (s < 9)%nat ->
    esc_holds zeta NUM_ENDOSCALING_POINTS (mk_wires (map (fe F) bs) o (repeat o 36) (repeat o 9)) s.
  Proof.
    intros Ev Ne s Hs. unfold esc_holds. cbn [wi_bits wi_initial wi_inputs wi_ints]. change (mk_endo F (map (fe F) bs) None) with (ewir F bs).
    destruct (origin_loop bs Ev Ne 4 1) as (d & Hd & Hh).
    do 9 (destruct s as [|s]; [unfold esc_step; cbn [repeat map nth_error input_range inputs_len NUM_ENDOSCALING_POINTS Nat.mul Nat.add Nat.sub Nat.min seq pick ENDOSCALINGS_PER_STEP];
      apply holds_bind; exists (pwir o, wir (1 * d)); split; [exact Hh|]; apply holds_bind; exists (wir (finv (1 * d))); split;
      [apply e_invert_w; split; [|reflexivity]; intros E; apply Hd; rewrite <- E; cbn [snd]; ring|cbn [fst]; apply pequal_w; auto]|]).
    lia.
  Qed.
End Origin.

(** ** the application *)
(* 37 points, nine steps, eight bits of endoscalar; rank 9, header size 2, 5 x 5 claims *)
Notation fx_nobj := (nested_obj (l97 35) (l97 11) (l97 13) (l97 17) (l97 19) (l97 11) (l97 13) (l97 17) 9 8 NUM_ENDOSCALING_POINTS).
Lemma fx_fits : forallb (fun s => fits_b 512 (esc_stages 8 points_values) (s_esc_step (l97 35) NUM_ENDOSCALING_POINTS 36 9 s)) (seq 0 9) = true.
Proof. vm_compute. reflexivity. Qed.
Notation fx_built := (built F2161 F97 TA2161 TA97 9 big_repr ex_repr ex_hash (fun a => [big_repr a]) big_from big_of_u ex_hash (fun a => [ex_repr a]) ex_from (fun n => l97 (Z.of_N n))
  k1 k2 k3 k4 k1 k2 k3 big_b 2 5 5 big_params big_of_u big_tag 8 gen2161 sqrt2161 big_zeta [] big_sobj 9 fx_nobj big_code).
Lemma fx_builds : exists native nested, fx_built native nested.
Proof.
  apply (proj2 (C54_builds F2161 F97 TA2161 TA97 9 big_repr ex_repr ex_hash (fun a => [big_repr a]) big_from big_of_u ex_hash (fun a => [ex_repr a]) ex_from (fun n => l97 (Z.of_N n))
    k1 k2 k3 k4 k1 k2 k3 big_b 2 5 5 big_params big_of_u big_tag 8 gen2161 sqrt2161 big_zeta [] big_sobj 9 fx_nobj big_code (ab_new F2161 F97) eq_refl
    ltac:(cbn; lia) big_places (fun id o _ => nested_obj_is F97 (l97 11) (l97 13) (l97 17) (l97 19) (l97 11) (l97 13) (l97 17) (l97 35) 9 8 NUM_ENDOSCALING_POINTS id o) eq_refl (fun w w' _ _ => big_key_inj w w') (fun w w' _ _ => ex_key_inj w w'))).
  split; [exact big_iobj_some|]. split; [intros i; exact (proj1 (code_fits_ok k1 k2 k3 k4 k1 k2 k3 9 6 (big_code (PStep i)) (big_code_fits i)))|].
  split; [|cbn [length Nat.add]; change (Nat.log2_up 15) with 4; change (Nat.log2_up 20) with 5; change (2 ^ 9) with 512; cbn [TA2161 TA97 ta_S]; lia].
  intros id Hid. destruct id as [st| | | | | | | | | | | ]; try (apply mask_some; vm_compute; reflexivity).
  assert (Hs : In st (seq 0 9)) by (cbn in Hid |- *; decompose [or] Hid; try discriminate; try contradiction; match goal with H : NStep _ = NStep _ |- _ => injection H; intros <-; tauto end).
  pose proof (proj1 (forallb_forall _ _) fx_fits st Hs) as Ft. apply fits_b_ok in Ft.
  assert (Es : step_new NUM_ENDOSCALING_POINTS st = Some st) by (apply in_seq in Hs; unfold step_new; do 9 (destruct st as [|st]; [reflexivity|]); lia).
  unfold nested_obj. cbv zeta. change (inputs_len NUM_ENDOSCALING_POINTS) with (Some 36). change (num_steps NUM_ENDOSCALING_POINTS) with (Some 9). change (pts_values NUM_ENDOSCALING_POINTS) with (Some points_values).
  cbv beta iota. rewrite Es. cbn [obind]. exact (multi_some _ _ _ _ _ _ _ 9 (esc_stages 8 points_values) _ Ft).
Qed.

(** ** the run *)
Definition fx_aff (h : FieldMod F2161) : option (F97 * F97) := Some (f0, f0).
Definition fx_aff' (h : FieldMod F97) : option (F2161 * F2161) := Some big_p.
Definition fx_gens' : list (FieldMod F97) := repeat (l97 5) 2048.
Lemma fx_gens_len : 4 * 2 ^ 9 <= length big_gens.
Proof. unfold big_gens. rewrite repeat_length. apply Nat.leb_le. reflexivity. Qed.
Lemma fx_gens_len' : 4 * 2 ^ 9 <= length fx_gens'.
Proof. unfold fx_gens'. rewrite repeat_length. apply Nat.leb_le. reflexivity. Qed.
Lemma fx_on c xy : fx_aff' c = Some xy -> on_curve big_b xy.
Proof. intros E. injection E as <-. apply gf_ext. vm_compute. reflexivity. Qed.
Lemma fx_challenges (u : uvals F2161) : (forall f, exists c, fx_aff' c = Some (uv_pt u f)) -> transcript big_params (tag_values F2161 big_of_u big_tag) u ->
  map v2161 (chals_1 u ++ chals_2 u) = [78; 2116; 1389; 1765; 938; 224; 1448; 660; 560; 1107; 1685]%Z.
Proof.
  intros Hp (d & E). assert (Pt : forall f, uv_pt u f = big_p) by (intros f; destruct (Hp f) as (c & Ec); injection Ec; auto).
  set (u0 := mk_uvals (fun _ => big_p) (fun _ => f0) : uvals F2161).
  assert (O : ops_1 (tag_values F2161 big_of_u big_tag) u ++ ops_2 u = ops_1 big_tagv u0 ++ ops_2 u0) by (unfold ops_1, ops_2, t_pt; rewrite !Pt; reflexivity).
  rewrite O in E.
  assert (X : match d_run (pp_RATE big_params) (poseidon big_params) (ops_1 big_tagv u0 ++ ops_2 u0) (d_new (pp_T big_params)) with
              | inr (o, _) => map v2161 o = [78; 2116; 1389; 1765; 938; 224; 1448; 660; 560; 1107; 1685]%Z | _ => False end) by (vm_compute; reflexivity).
  rewrite E in X. exact X.
Qed.
Lemma fx_elements (u : uvals F2161) : map v2161 (chals_1 u ++ chals_2 u) = [78; 2116; 1389; 1765; 938; 224; 1448; 660; 560; 1107; 1685]%Z ->
  uv_el u Uw = l2161 78 /\ uv_el u Uy = l2161 2116 /\ uv_el u Uz = l2161 1389 /\ uv_el u Ux = l2161 660 /\ uv_el u Uu = l2161 1107 /\ uv_el u Umu = l2161 1765 /\ uv_el u Umu' = l2161 224.
Proof.
  intros E. assert (X : forall i a, nth i (map v2161 (chals_1 u ++ chals_2 u)) 0%Z = v2161 a -> nth i [78; 2116; 1389; 1765; 938; 224; 1448; 660; 560; 1107; 1685]%Z 0%Z = v2161 a) by (intros i a <-; now rewrite E).
  repeat split; apply gf_ext; symmetry; [apply (X 0)|apply (X 1)|apply (X 2)|apply (X 7)|apply (X 9)|apply (X 3)|apply (X 5)]; reflexivity.
Qed.
Lemma fx_trivial_ch native c : trivial_proof F2161 F97 (FieldMod F2161) (FieldMod F97) fx_aff' 9 native big_gens fx_gens' 2 9 = Some c -> (forall h, pf_chal (fp_proof c) h = f1) /\ pf_circuit_id (fp_proof c) = 0%N.
Proof.
  unfold trivial_proof. destruct (ones _) as [o|]; [|discriminate]. cbn [obind]. destruct (p_commit _ _ o) as [cm|]; [|discriminate]. cbn [obind]. destruct (ones _) as [os|]; [|discriminate]. cbn [obind].
  destruct (p_commit _ _ os) as [cms|]; [|discriminate]. cbn [obind]. destruct (reg_xy _ _ _ _ _ _) as [q|]; [|discriminate]. cbn [obind]. destruct (p_commit _ _ q) as [qc|]; [|discriminate]. cbn [obind].
  intros E. assert (E' := f_equal (fun o => match o with Some x => x | None => c end) E). cbv beta iota in E'. rewrite <- E'. split; [intros h|]; reflexivity.
Qed.
Notation fx_fuse native := (fuse_core F2161 F97 (FieldMod F2161) (FieldMod F97) fx_aff fx_aff' TA2161 9 big_repr native big_gens fx_gens' big_b 2 5 5 big_params big_of_u big_tag 8 gen2161 sqrt2161 big_zeta).
Notation fx_trivial native := (trivial_proof F2161 F97 (FieldMod F2161) (FieldMod F97) fx_aff' 9 native big_gens fx_gens' 2 9).
Notation fx_verify native nested := (verify (H := FieldMod F2161) TA2161 TA97 9 big_repr ex_repr (@feqb F2161) big_gens big_b 2 9 native nested).
Notation fx_made native := (made F2161 F97 TA2161 9 big_repr big_b 2 5 5 big_params big_of_u big_tag 8 gen2161 sqrt2161 big_zeta [] (l97 35) big_code native (FieldMod F2161) fx_aff (FieldMod F97) fx_aff' big_gens fx_gens').
Definition fx_blinds : blinds F2161 F97 := mk_blinds (l2161 31) (l2161 32) (l2161 33) (l2161 34) (l2161 35) (fun _ => l97 41) (l97 42) (l97 43).
Lemma const_points {A B : Type} (l : list A) (l' : list B) b : map (fun _ => Some b) l = map Some l' -> l' = repeat b (length l').
Proof.
  revert l. induction l' as [|x l' IH]; intros [|y l] E; try discriminate; [reflexivity|]. cbn [map] in E. injection E as -> E. cbn [length repeat]. f_equal. exact (IH _ E).
Qed.
(** The trivial proofs of this application are fused by the rerandomisation step: the
    run meets the hypotheses of all the theorems of C57, and the proof is accepted. *)
Example C57_ex : exists native nested, fx_built native nested /\
  (forall h, fx_aff' h <> None) /\
  exists (c0 c : fproof F2161 F97 (FieldMod F2161)) u0 R,
    fx_trivial native = Some c0 /\ valid 9 native big_gens big_b 2 15 c0 u0 /\
    fx_fuse native c0 c0 (AppSpec.padded 2 f1 []) (AppSpec.padded 2 f1 []) fx_blinds = inr R /\ ~ degenerate TA2161 c0 c0 R /\
    fx_made native true c f1 [] /\ N.to_nat (pf_circuit_id (fp_proof c)) = 13 /\
    forall w y z y' z', fx_verify native nested (fp_proof c) (Some f1) (Some []) w y z y' z' = Some true.
Proof.
  destruct fx_builds as (native & nested & B). exists native, nested. split; [exact B|]. split; [intros h; discriminate|].
  destruct (C57_trivial_runs _ _ _ _ _ _ _ _ _ _ _ _ _ _ _ _ _ _ _ _ _ _ _ _ _ _ _ _ _ _ _ _ _ _ _ _ _ _ _ _ _ _ _ _ _ _ B) with (Hs := FieldMod F97) (aff' := fx_aff') (gens := big_gens) (gens' := fx_gens')
    as (c0 & Ec0 & V0); try exact fx_on; try exact fx_gens_len; try exact fx_gens_len'; try lia.
  destruct (V0 ltac:(intros h; discriminate)) as (u0 & V). clear V0.
  set (t := AppSpec.padded 2 (f1 : F2161) []). assert (Lt : length t = 2) by reflexivity.
  (* the run *)
  pose proof (C57_runs _ _ _ _ _ _ _ _ _ _ _ _ _ _ _ _ _ _ _ _ _ _ _ _ _ _ _ _ _ _ _ _ _ _ _ _ _ _ _ _ _ _ _ _ _ _ B C34_big_wf ltac:(lia) ltac:(lia) ltac:(lia) sqrt2161_some sqrt2161_none gen2161_ok eq_refl
    (FieldMod F2161) fx_aff (FieldMod F97) fx_aff' big_gens fx_gens' fx_gens_len fx_gens_len' c0 c0 u0 u0 t t fx_blinds V V Lt Lt) as Run.
  destruct (fx_fuse native c0 c0 t t fx_blinds) as [[ | | ]|R] eqn:ER.
  - destruct Run as [(h & E)|(h & E)]; discriminate.
  - destruct Run as (u & Hp & Tr & Z). destruct (fx_elements u (fx_challenges u Hp Tr)) as (_ & _ & _ & _ & _ & E1 & E2). exfalso.
    destruct Z as [Z|Z]; [rewrite Z in E1; apply (f_equal v2161) in E1; vm_compute in E1; discriminate|rewrite Z in E2; apply (f_equal v2161) in E2; vm_compute in E2; discriminate].
  - destruct Run.
  - destruct Run as (u & In_ & Hp & Tr).
    assert (Dg : ~ degenerate TA2161 c0 c0 R).
    { destruct (fx_elements u (fx_challenges u Hp Tr)) as (Ew & Ey & Ez & Ex & Eu & _). destruct In_ as (_ & I1 & I2 & I3 & _ & _ & _ & _ & _ & I9 & _ & I11 & _).
      rewrite I1 in Ew. rewrite I2 in Ey. rewrite I3 in Ez. rewrite I9 in Ex. rewrite I11 in Eu. destruct (fx_trivial_ch native c0 Ec0) as (Cc & Ci).
      unfold degenerate, child_denoms. cbv zeta. rewrite !Cc, Ci, Ew, Ey, Ez, Ex, Eu. intros [Z|[Z|Z]].
      - apply (f_equal v2161) in Z. vm_compute in Z. discriminate.
      - apply (f_equal v2161) in Z. vm_compute in Z. discriminate.
      - assert (Q : existsb (feqb (l2161 1107)) (points_of (mk_denoms (mk_cdenoms f1 f1 f1 (omega_j TA2161 0%N)) (mk_cdenoms f1 f1 f1 (omega_j TA2161 0%N)) (l2161 78) (l2161 660) (l2161 2116)
            (fmul (l2161 660) (l2161 1389)) (internal_omega TA2161))) = false) by (vm_compute; reflexivity).
        assert (Q' : existsb (feqb (l2161 1107)) (points_of (mk_denoms (mk_cdenoms f1 f1 f1 (omega_j TA2161 0%N)) (mk_cdenoms f1 f1 f1 (omega_j TA2161 0%N)) (l2161 78) (l2161 660) (l2161 2116)
            (fmul (l2161 660) (l2161 1389)) (internal_omega TA2161))) = true) by (apply existsb_exists; exists (l2161 1107); split; [exact Z|apply feqb_true; reflexivity]).
        congruence. }
    assert (Chi : is_base (shown TA2161 (fp_proof c0) u0 t) (shown TA2161 (fp_proof c0) u0 t) \/ (sound TA2161 9 big_repr native 15 c0 u0 t /\ sound TA2161 9 big_repr native 15 c0 u0 t)) by (left; split; reflexivity).
    destruct (C57_step _ _ _ _ _ _ _ _ _ _ _ _ _ _ _ _ _ _ _ _ _ _ _ _ _ _ _ _ _ _ _ _ _ _ _ _ _ _ _ _ _ _ _ _ _ _ B C34_big_wf ltac:(lia) ltac:(lia) ltac:(lia) sqrt2161_some sqrt2161_none gen2161_ok eq_refl
      (FieldMod F2161) fx_aff (FieldMod F97) fx_aff' big_gens fx_gens' fx_gens_len fx_on c0 c0 u0 u0 t t fx_blinds R V V Lt Lt ER Dg Chi) as (u' & Sp & Bd & _).
    assert (Hh : headers_of 2 (shown TA2161 (fp_proof c0) u0 t)) by (split; [exact (vd_left V)|split; [exact (vd_right V)|exact Lt]]).
    assert (T1 : t = AppSpec.padded 2 (l2161 1) []) by (apply map2161; vm_compute; reflexivity).
    (* the traces *)
    destruct (traces_with _ _ _ _ _ _ _ _ _ _ _ _ _ _ _ _ _ _ _ _ _ _ _ _ _ _ _ _ _ _ _ _ _ _ _ _ _ _ _ _ _ _ _ _ _ _ B (FieldMod F2161) fx_aff (FieldMod F97) fx_aff' big_gens fx_gens' fx_gens_len C34_big_wf ltac:(lia) ltac:(lia) ltac:(lia) sqrt2161_some sqrt2161_none gen2161_ok
      fx_blinds _ _ R u' (PStep IRerandomize) 13 (map wir (t ++ t ++ t)) (l2161 51) f1 [] c0 c0 Sp Hh Hh Logic.I eq_refl) as (app & h1 & h2 & ic & oc & cv & steps & As).
    { apply (proj1 (proj2 (C44_rerandomize F2161 2 (l2161 8) (l2161 1) [l2161 12] (le_n 2)))). exists t. split; [reflexivity|]. now rewrite <- T1. }
    { rewrite map_map. cbn [ew wir]. rewrite map_id. reflexivity. }
    { exact Bd. }
    { intros p0 qs ints A0 AI AT Lq Li. assert (p0 = (f0, f0)) as -> by (unfold fx_aff in A0; congruence).
      rewrite (const_points _ qs (f0, f0) AI), (const_points _ ints (f0, f0) AT), Lq, Li. rewrite <- (map_map (nbit _) (fe F97)). apply origin_steps; [now rewrite map_length, seq_length|discriminate]. }
    destruct (C57_fused _ _ _ _ _ _ _ _ _ _ _ _ _ _ _ _ _ _ _ _ _ _ _ _ _ _ _ _ _ _ _ _ _ _ _ _ _ _ _ _ _ _ _ _ _ _ B ltac:(lia) ltac:(lia) ltac:(lia)
      (FieldMod F2161) fx_aff (FieldMod F97) fx_aff' (@feqb F2161) big_gens fx_gens' (fun a b => feqb_true F2161 a b) fx_gens_len fx_on c0 c0 fx_blinds _ _ R u' (PStep IRerandomize) 13%N f1 [] app h1 h2 ic oc cv steps
      Sp Bd Hh Hh Logic.I eq_refl ltac:(cbn; lia) As) as (c & Ec & Vc & Sc & Ac).
    exists c0, c, u0, R. split; [exact Ec0|]. split; [exact V|]. split; [exact ER|]. split; [exact Dg|].
    assert (Md : made F2161 F97 TA2161 9 big_repr big_b 2 5 5 big_params big_of_u big_tag 8 gen2161 sqrt2161 big_zeta [] (l97 35) big_code native (FieldMod F2161) fx_aff (FieldMod F97) fx_aff' big_gens fx_gens' false c0 f1 []).
    { apply made_trivial; [exact Ec0|]. intros f. destruct (vd_published V) as (Pf & _). rewrite (Pf f). discriminate. }
    split; [|split; [|exact Ac]].
    + refine (made_fused _ _ _ _ _ _ _ _ _ _ _ _ _ _ _ _ _ _ _ _ _ _ _ _ _ _ false c0 f1 [] false c0 f1 [] fx_blinds R u' (PStep IRerandomize) 13%N f1 [] app h1 h2 ic oc cv steps c Md Md (or_intror (conj eq_refl eq_refl)) ER Dg Logic.I eq_refl _ (sp_instance Sp) As Ec). cbn; lia.
    + clear -Ec. unfold fuse_finish in Ec. cbv zeta in Ec. match type of Ec with obind ?o _ = _ => destruct o as [cs|] end; [|discriminate]. cbn [obind] in Ec.
      assert (E' := f_equal (fun o => match o with Some x => N.to_nat (pf_circuit_id (fp_proof x)) | None => 0 end) Ec). cbv beta iota in E'. rewrite <- E'. reflexivity.
Qed.
