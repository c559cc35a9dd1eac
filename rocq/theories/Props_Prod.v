(** C63: the production instantiation over the Pasta cycle. *)
From Coq Require Import List Arith NArith ZArith Znumtheory Bool Lia Ring Field.
From Verif Require Import FieldDef ModDef GF PrimeCert Pasta ArithModel FFTModel FFTProofs SparseModel SparseSpec CircModel CircSpec GadgetModel GadgetSpec GadgetProofs SpongeModel SpongeSpec
  StageModel RegModel RegSpec PointSpec EndoSpec EscModel EscSpec PcdModel PcdSpec RecModel RecSpec CompileModel CompileSpec CompileSpec2
  AppModel AppSpec AppProofs SProofs CircProofs Props_Sponge PastaSpec PastaModel PastaProofs2 Props_Pasta Props_Reg Props_App Props_Comp Props_Rec Props_Step Props_StepEx VerifyModel VerifySpec VerifySpec2 RegProofs RegProofs2 VerifyProofs8 Props_Verify Props_VerifyEx
  RecStageModel RecStageSpec NestedModel NestedSpec NestedProofs FuseModel FuseSpec Props_Fuse AccSpec Props_Acc HistSpec Props_Hist ProdModel ProdProofs.
Import ListNotations.
Local Open Scope nat_scope.

(** ** sizes *)
Definition staged_counts {F : Field} (stages : list (nat * nat)) (c : staged F) : option (nat * nat) :=
  match sprog stages c with
  | Some (b, o) => Some (list_sum (map fst (sizes (orchestrate b o))), list_sum (map snd (sizes (orchestrate b o))))
  | None => None
  end.
Lemma counts_registered {F : Field} n stages (c : staged F) g k : staged_counts stages c = Some (g, k) -> (CompileSpec2.registered n stages c <-> g <= n /\ k < 4 * n).
Proof.
  unfold staged_counts, CompileSpec2.registered. destruct (sprog stages c) as [[b o]|]; [|discriminate]. intros E. injection E as <- <-. split.
  - intros (b' & o' & E & H). injection E as <- <-. exact H.
  - intros H. now exists b, o.
Qed.
Lemma multi_none {F : Field} (x0 x1 x2 x3 yc onec hc : F) lg stages (c : staged F) : multi_obj x0 x1 x2 x3 yc onec hc lg stages c <> None <-> CompileSpec2.registered (2 ^ lg) stages c.
Proof.
  split; [|apply multi_some]. unfold multi_obj, CompileSpec2.registered. destruct (sprog stages c) as [[b o]|]; cbn [obind fst snd]; [|congruence].
  intros H. exists b, o. split; [reflexivity|]. now apply (C21_objects F x0 x1 x2 x3 yc onec hc lg b o).
Qed.
Lemma multi_counts {F : Field} (x0 x1 x2 x3 yc onec hc : F) lg stages (c : staged F) o k : multi_obj x0 x1 x2 x3 yc onec hc lg stages c = Some o ->
  staged_counts stages c = Some k -> constraint_counts o = k.
Proof.
  unfold multi_obj, staged_counts. destruct (sprog stages c) as [[b outs]|]; cbn [obind fst snd]; [|discriminate]. unfold prog_cobj, circuit_object. intros E Ek. injection Ek as <-.
  destruct (CircProofs.metrics_ok F x0 x1 x2 x3 yc onec hc b outs) as (segs & Em & Ms). rewrite Em in E.
  destruct (_ <=? _); [discriminate|]. destruct (_ <? _); [discriminate|]. cbn [obind] in E. injection E as <-. unfold constraint_counts. cbn [ob_segs]. change (map (fun s => (sr_gates F s, sr_cons F s)) segs) with (map (CircProofs.cnt F) segs). now rewrite Ms.
Qed.

Definition prod_h1 log2 := s_hashes_1 Fp CURVE_B HEADER_SIZE NUM_GROUPS PoseidonFp fp_of_u RAGU_TAG log2.
Definition prod_h2 := s_hashes_2 Fp CURVE_B NUM_GROUPS PoseidonFp.
Definition prod_in := s_inner Fp CURVE_B HEADER_SIZE GROUP_SIZE NUM_GROUPS PoseidonFp.
Definition prod_out := s_outer Fp CURVE_B HEADER_SIZE NUM_GROUPS PoseidonFp.
Definition prod_cv fsqrt om := s_compute_v Fp CURVE_B HEADER_SIZE GROUP_SIZE NUM_GROUPS PROD_LG UENDO_BITS GENERATOR fsqrt fp_zeta om.
Definition prod_hs := hashes_stages Fp HEADER_SIZE NUM_GROUPS PoseidonFp.
Definition peq (a b : option (nat * nat)) : bool := match a, b with Some (x, y), Some (x', y') => (x =? x') && (y =? y') | _, _ => false end.
Lemma peq_ok a b : peq a b = true -> a = b.
Proof. destruct a as [[x y]|], b as [[x' y']|]; try discriminate. cbn. intros E. apply andb_true_iff in E. destruct E as [E1 E2]. apply Nat.eqb_eq in E1, E2. now subst. Qed.
Lemma prod_h1_counts log2 : log2 <= 32 -> staged_counts prod_hs (prod_h1 log2) = Some (2019 + 2 * log2, 3370 + 4 * log2).
Proof.
  intros L. assert (Q : forallb (fun k => peq (staged_counts prod_hs (prod_h1 k)) (Some (2019 + 2 * k, 3370 + 4 * k))) (seq 0 33) = true) by (vm_compute; reflexivity).
  rewrite forallb_forall in Q. apply peq_ok, Q, in_seq. lia.
Qed.
Lemma prod_h2_counts : staged_counts prod_hs prod_h2 = Some (1879, 2951). Proof. vm_compute. reflexivity. Qed.
Lemma prod_in_counts : staged_counts (inner_stages Fp HEADER_SIZE GROUP_SIZE NUM_GROUPS PoseidonFp) prod_in = Some (1756, 1918). Proof. vm_compute. reflexivity. Qed.
Lemma prod_out_counts : staged_counts prod_hs prod_out = Some (811, 808). Proof. vm_compute. reflexivity. Qed.
Lemma prod_cv_counts fsqrt om : staged_counts (v_stages HEADER_SIZE) (prod_cv fsqrt om) = Some (1140, 1773). Proof. vm_compute. reflexivity. Qed.
Lemma prod_steps_counts s : s < 9 -> staged_counts (esc_stages UENDO_BITS points_values) (s_esc_step fq_zeta NUM_ENDOSCALING_POINTS 36 9 s) = Some (1948, 3677).
Proof.
  intros L. assert (Q : forallb (fun k => peq (staged_counts (esc_stages UENDO_BITS points_values) (s_esc_step fq_zeta NUM_ENDOSCALING_POINTS 36 9 k)) (Some (1948, 3677))) (seq 0 9) = true) by (vm_compute; reflexivity).
  rewrite forallb_forall in Q. apply peq_ok, Q, in_seq. lia.
Qed.

(** ** the theorems on sizes *)
(** The recursion circuits of an application whose registry has 2^log2 places compile to
    these numbers of gates and constraints: with log2 = 13 they are the numbers pinned by
    the crate's tests (internal/tests.rs:88-92), which use 6000 steps. *)
Definition prod_count (log2 : nat) (id : icid) : option (nat * nat) :=
  match id with
  | Hashes1Circuit => Some (2019 + 2 * log2, 3370 + 4 * log2)
  | Hashes2Circuit => Some (1879, 2951)
  | InnerCollapseCircuit => Some (1756, 1918)
  | OuterCollapseCircuit => Some (811, 808)
  | ComputeVCircuit => Some (1140, 1773)
  | _ => None
  end.
Theorem C63_counts : forall (x0 x1 x2 x3 yc onec hc : Fp) fsqrt log2 id o k, log2 <= 32 ->
  prod_obj x0 x1 x2 x3 yc onec hc HEADER_SIZE fsqrt log2 id = Some o -> prod_count log2 id = Some k -> constraint_counts o = k.
Proof.
  intros x0 x1 x2 x3 yc onec hc fsqrt log2 id o k L E Ek. unfold prod_obj, native_obj in E.
  destruct id; cbn [prod_count] in Ek; match type of Ek with None = _ => discriminate Ek | _ => idtac end.
  - exact (multi_counts _ _ _ _ _ _ _ _ _ _ o k E (eq_trans (prod_h1_counts log2 L) Ek)).
  - exact (multi_counts _ _ _ _ _ _ _ _ _ _ o k E (eq_trans prod_h2_counts Ek)).
  - exact (multi_counts _ _ _ _ _ _ _ _ _ _ o k E (eq_trans prod_in_counts Ek)).
  - exact (multi_counts _ _ _ _ _ _ _ _ _ _ o k E (eq_trans prod_out_counts Ek)).
  - exact (multi_counts _ _ _ _ _ _ _ _ _ _ o k E (eq_trans (prod_cv_counts fsqrt (internal_omega TAFp)) Ek)).
Qed.
Print Assumptions C63_counts.

(** The stages' places (internal/tests.rs:105-109): the gates skipped and the gates
    taken by the preamble, outer error, inner error, query and evaluation stages. *)
Theorem C63_stages :
  let pre := pre_wires HEADER_SIZE in let oe := oe_wires NUM_GROUPS (pp_T PoseidonFp) in let ie := ie_wires GROUP_SIZE NUM_GROUPS in
  [(skip_gates [], stage_gates pre); (skip_gates [pre], stage_gates oe); (skip_gates [oe; pre], stage_gates ie);
   (skip_gates [pre], stage_gates query_wires); (skip_gates [query_wires; pre], stage_gates eval_wires)] =
  [(1, 225); (226, 186); (412, 399); (226, 23); (249, 18)].
Proof. vm_compute. reflexivity. Qed.
Print Assumptions C63_stages.

(** All thirteen recursion circuits compile exactly when the registry has at most 2^14
    places; the nested circuits always do. *)
Theorem C63_objects : forall (x0 x1 x2 x3 yc onec hc : Fp) fsqrt log2, log2 <= 32 ->
  ((forall id, prod_obj x0 x1 x2 x3 yc onec hc HEADER_SIZE fsqrt log2 id <> None) <-> log2 <= 14).
Proof.
  intros x0 x1 x2 x3 yc onec hc fsqrt log2 L. split.
  - intros All. specialize (All Hashes1Circuit). unfold prod_obj, native_obj in All. apply multi_none in All.
    apply (counts_registered _ _ _ _ _ (prod_h1_counts log2 L)) in All. change (2 ^ PROD_LG) with 2048 in All. lia.
  - intros L14 id. unfold prod_obj, native_obj. destruct id; match goal with |- mask_obj _ _ <> None => apply mask_some; vm_compute; reflexivity | _ => apply multi_none end.
    + apply (counts_registered _ _ _ _ _ (prod_h1_counts log2 L)). change (2 ^ PROD_LG) with 2048. lia.
    + apply (counts_registered _ _ _ _ _ prod_h2_counts). change (2 ^ PROD_LG) with 2048. lia.
    + apply (counts_registered _ _ _ _ _ prod_in_counts). change (2 ^ PROD_LG) with 2048. lia.
    + apply (counts_registered _ _ _ _ _ prod_out_counts). change (2 ^ PROD_LG) with 2048. lia.
    + apply (counts_registered _ _ _ _ _ (prod_cv_counts fsqrt (internal_omega TAFp))). change (2 ^ PROD_LG) with 2048. lia.
Qed.
Print Assumptions C63_objects.
Theorem C63_nested : forall (x0 x1 x2 x3 yc onec hc : Fq) id, In id (ncid_all 9) -> prod_nobj x0 x1 x2 x3 yc onec hc id <> None.
Proof.
  intros x0 x1 x2 x3 yc onec hc id Hid. unfold prod_nobj. destruct id as [st| | | | | | | | | | | ]; [|apply mask_some; vm_compute; reflexivity..].
  assert (Hs : st < 9) by (cbn in Hid; decompose [or] Hid; try discriminate; try contradiction; match goal with H : NStep _ = NStep _ |- _ => injection H; intros <-; lia end).
  assert (Es : step_new NUM_ENDOSCALING_POINTS st = Some st) by (unfold step_new; do 9 (destruct st as [|st]; [reflexivity|]); lia).
  unfold nested_obj. cbv zeta. change (inputs_len NUM_ENDOSCALING_POINTS) with (Some 36). change (num_steps NUM_ENDOSCALING_POINTS) with (Some 9). change (pts_values NUM_ENDOSCALING_POINTS) with (Some points_values).
  cbv beta iota. rewrite Es. cbn [obind]. apply multi_none. apply (counts_registered _ _ _ _ _ (prod_steps_counts st Hs)). change (2 ^ PROD_LG) with 2048. lia.
Qed.
Print Assumptions C63_nested.

(** ** building an application *)
Section Build.
Variables (hash : list N -> list N) (to_bytes : Fp -> list N) (from_uniform : list N -> Fp) (f_of_u64 : N -> Fp).
Variables (hash' : list N -> list N) (to_bytes' : Fq -> list N) (from_uniform' : list N -> Fq) (f_of_u64' : N -> Fq).
Variables (x0 x1 x2 x3 yc onec hc : Fp) (x0' x1' x2' x3' yc' onec' hc' : Fq) (fsqrt : Fp -> option Fp).
Variables (apps : list (step Fp)) (sobj : istep -> option (cobj Fp)) (code : place -> circuit Fp).
(** an application of the production instantiation with headers of [hs] elements, and
    its registries *)
Definition prod_built (hs : nat) : registry Fp -> registry Fq -> Prop :=
  built Fp Fq TAFp TAFq PROD_LG fp_repr fq_repr hash to_bytes from_uniform f_of_u64 hash' to_bytes' from_uniform' f_of_u64'
    x0 x1 x2 x3 yc onec hc CURVE_B hs GROUP_SIZE NUM_GROUPS PoseidonFp fp_of_u RAGU_TAG UENDO_BITS GENERATOR fsqrt fp_zeta apps sobj 9
    (prod_nobj x0' x1' x2' x3' yc' onec' hc') code.
Local Notation log2 := (Nat.log2_up (length apps + 15)).
Local Notation io hs := (prod_obj x0 x1 x2 x3 yc onec hc hs fsqrt log2).
Lemma prod_builds hs : (forall log2, log2 <= 13 -> forall id, prod_obj x0 x1 x2 x3 yc onec hc hs fsqrt log2 id <> None) ->
  forall b, register_steps Fp Fq (ab_new Fp Fq) apps = Some b ->
  (forall p, step_place (length apps) p -> generic (code p) /\ exists outs, couts (code p) = Some outs /\ length outs = 3 * hs /\
     place_obj apps (io hs) sobj p = prog_cobj x0 x1 x2 x3 yc onec hc PROD_LG (cbody (code p)) outs) ->
  (forall i, sobj i <> None) ->
  ((exists native nested, prod_built hs native nested) <-> length apps + 15 <= 2 ^ 13).
Proof.
  intros Ob b R Pl So.
  pose (Key := forall w w' : Fp, fpow w (2 ^ log2) = f1 -> fpow w' (2 ^ log2) = f1 -> omega_key Fp fp_repr w = omega_key Fp fp_repr w' -> w = w').
  pose proof (fun K : Key => C54_builds Fp Fq TAFp TAFq PROD_LG fp_repr fq_repr hash to_bytes from_uniform f_of_u64 hash' to_bytes' from_uniform' f_of_u64'
    x0 x1 x2 x3 yc onec hc CURVE_B hs GROUP_SIZE NUM_GROUPS PoseidonFp fp_of_u RAGU_TAG UENDO_BITS GENERATOR fsqrt fp_zeta apps sobj 9 (prod_nobj x0' x1' x2' x3' yc' onec' hc') code b R
    (conj (le_n 32) (le_n 32)) Pl (fun id o _ => nested_obj_is Fq x0' x1' x2' x3' yc' onec' hc' fq_zeta PROD_LG UENDO_BITS NUM_ENDOSCALING_POINTS id o) eq_refl K
    (proj2 (C59_keys 5 ltac:(lia)))) as Iff. cbv zeta in Iff.
  change (4 * 2 ^ PROD_LG) with (2 ^ 2 * 2 ^ 11) in Iff. rewrite <- Nat.pow_add_r in Iff. change (2 + 11) with 13 in Iff. change (ta_S TAFp) with 32 in Iff. change (ta_S TAFq) with 32 in Iff. change (Nat.log2_up (9 + 11)) with 5 in Iff.
  split.
  - intros (native & nested & B). assert (K : Key) by exact (bl_key _ _ _ _ _ _ _ _ _ _ _ _ _ _ _ _ _ _ _ _ _ _ _ _ _ _ _ _ _ _ _ _ _ _ _ _ _ _ _ _ B).
    destruct (proj1 (Iff K) (ex_intro _ native (ex_intro _ nested B))) as (_ & _ & _ & L & _). exact L.
  - intros L. assert (L13 : log2 <= 13) by (rewrite <- (Nat.log2_up_pow2 13) by lia; now apply Nat.log2_up_le_mono).
    apply (Iff (proj1 (C59_keys log2 L13))).
    split; [now apply Ob|]. split; [exact So|]. split; [apply C63_nested|]. split; [exact L|]. split; [lia|]. split; [|lia].
    apply Nat.leb_le. reflexivity.
Qed.
(** Of an application whose steps register and whose step circuits compile, only the
    number of steps decides whether it can be built: with the fifteen circuits of the
    recursion there must be at most as many as the polynomials have coefficients, 8192.
    (The lookup keys identify the circuits of every registry of that size, C59_keys.) *)
Theorem C63_builds : forall b, register_steps Fp Fq (ab_new Fp Fq) apps = Some b ->
  (forall p, step_place (length apps) p -> generic (code p) /\ exists outs, couts (code p) = Some outs /\ length outs = 3 * HEADER_SIZE /\
     place_obj apps (io HEADER_SIZE) sobj p = prog_cobj x0 x1 x2 x3 yc onec hc PROD_LG (cbody (code p)) outs) ->
  (forall i, sobj i <> None) ->
  ((exists native nested, prod_built HEADER_SIZE native nested) <-> length apps + 15 <= 2 ^ 13).
Proof. apply prod_builds. intros k L. apply (C63_objects x0 x1 x2 x3 yc onec hc fsqrt k); lia. Qed.

Lemma id_bound k id : (id < 2 ^ N.of_nat k)%N <-> N.to_nat id < 2 ^ k.
Proof.
  assert (E : forall k, N.to_nat (2 ^ N.of_nat k) = 2 ^ k).
  { clear. induction k as [|k IH]; [reflexivity|]. rewrite Nat2N.inj_succ, N.pow_succ_r', N2Nat.inj_mul, IH. reflexivity. }
  rewrite <- E. lia.
Qed.
(** ** what an accepted proof shows, over Pasta *)
(** C62_means over Pasta: suffixes of different header types are different elements *)
Theorem C63_means : forall hs (bs : list (sbody Fp)) v0 d0, 0 < hs -> length d0 < hs ->
  (forall b i, In b bs -> sb_left b = SufInternal i \/ sb_right b = SufInternal i -> (i < NUM_INTERNAL_SUFFIXES)%N) ->
  code (PStep IRerandomize) Fp f1 = rerandomize_circuit Fp Fp f1 false hs (Some v0) (Some f1) d0 ->
  code (PStep ITrivial) Fp f1 = trivial_circuit Fp Fp f1 false hs (Some f1) ->
  (forall i b res, nth_error bs i = Some b -> holds (code (PApp i) Fp f1) res -> holds (gbind (sb_run b) (fun t =>
     adapter_write Fp Fp f1 false hs (Some (suffix_value fp_of_u (sb_left b))) (Some (suffix_value fp_of_u (sb_right b))) (Some (suffix_value fp_of_u (sb_out b)))
       (EncGadget (map wir (fst (fst t)))) (EncGadget (map wir (snd (fst t)))) (EncGadget (map wir (snd t))))) res) ->
  Forall header_types bs ->
  code_means hs (map (step_of fp_of_u) bs) code.
Proof.
  intros hs bs v0 d0 Hhs Ld Hi Cr Ct Ca Ht. refine (C62_means Fp hs fp_of_u bs code v0 d0 Hhs Ld lFp_one _ Cr Ct Ca Ht).
  intros b s v Ib Hs Ev. assert (Lv : (v < 2 ^ 64)%N).
  { destruct s as [i|i]; cbn [suffix_get] in Ev.
    - injection Ev as <-. apply N.lt_trans with NUM_INTERNAL_SUFFIXES; [|reflexivity]. apply (Hi b); [exact Ib|]. destruct Hs as [Hs|Hs]; rewrite Hs; auto.
    - destruct (N.ltb_spec (i + NUM_INTERNAL_SUFFIXES) (2 ^ 64)) as [L|]; [|discriminate]. injection Ev as <-. exact L. }
  split; intros E.
  - apply fp_of_u_inj; [exact Lv|reflexivity|]. rewrite E. apply gf_ext. vm_compute. reflexivity.
  - apply fp_of_u_inj; [exact Lv|reflexivity|]. rewrite E. symmetry. exact lFp_one.
Qed.
(** What the general theorems assume of the field, the curve and the sponge is established
    for the Pasta constants (C59); what remains is that [fsqrt] is a square root function. *)
Section Sound.
Variable hs : nat.
Hypothesis Hhs : 0 < hs.
Variables (native : registry Fp) (nested : registry Fq).
Hypothesis B : prod_built hs native nested.
Hypotheses (SS : forall v s : Fp, fsqrt v = Some s -> fmul s s = v) (SN : forall v : Fp, fsqrt v = None -> ~ square v).
Variables (H : FMod Fp) (heq : H -> H -> bool) (gens : list H).
Hypothesis Hheq : forall a b : H, heq a b = true <-> a = b.
Hypothesis Hgens : 4 * 2 ^ PROD_LG <= length gens.
Variable steps : list (tstep Fp).
Hypothesis Hsteps : length steps = length apps.
Hypothesis CM : code_means hs steps code.
Definition prod_backed (p : proof Fp Fq H) (out : list Fp) : Prop :=
  backed TAFp PROD_LG log2 hs GROUP_SIZE NUM_GROUPS CURVE_B UENDO_BITS GENERATOR fp_zeta (reg_rv TAFp PROD_LG fp_repr native) p out.
Local Notation verify := (verify TAFp TAFq PROD_LG fp_repr fq_repr heq gens CURVE_B hs 9 native nested).
(** C62_accepted over Pasta *)
Theorem C63_accepted : forall (p : proof Fp Fq H) s d ys, wf_proof (2 ^ PROD_LG) p -> (pf_circuit_id p < 2 ^ 32)%N ->
  often Fp Fq TAFp TAFq PROD_LG fp_repr fq_repr CURVE_B hs 9 native nested H heq gens p (Some s) (Some d) ys ->
  s <> f0 -> (s = f1 -> d = []) -> prod_backed p (AppSpec.padded hs s d) -> derived hs steps (AppSpec.padded hs s d).
Proof.
  intros p s d ys Wp Hc Of Ns E1 Bk.
  refine (C62_accepted _ _ _ _ _ _ _ _ _ _ _ _ _ _ _ _ _ _ _ _ _ _ _ _ _ _ _ _ _ _ _ _ _ _ _ _ _ _ _ _ B H (proj1 C59_wf) Hhs _ _ _ SS SN (proj2 (proj1 C59_squares)) steps Hsteps CM _ heq gens Hheq Hgens p s d ys Wp _ Of Ns E1 Bk).
  - apply Nat.ltb_lt. reflexivity.
  - apply Nat.leb_le. reflexivity.
  - apply Nat.leb_le. reflexivity.
  - apply Nat.ltb_lt. reflexivity.
  - exact (proj1 (id_bound 32 _) Hc).
Qed.
(** The prover's side: a proof made by a tree of fuses is accepted for its header at
    every challenge, its ancestors can be had, and so its header is computed by the steps
    (C57_made, C62_made and C62_accepted over Pasta). *)
Section Made.
Variables (aff : H -> option (Fq * Fq)) (Hs : FMod Fq) (aff' : Hs -> option (Fp * Fp)) (gens' : list Hs).
Hypothesis Hgens' : 4 * 2 ^ PROD_LG <= length gens'.
Hypothesis Haff : forall c xy, aff' c = Some xy -> on_curve CURVE_B xy.
Local Notation made := (made Fp Fq TAFp PROD_LG fp_repr CURVE_B hs GROUP_SIZE NUM_GROUPS PoseidonFp fp_of_u RAGU_TAG UENDO_BITS GENERATOR fsqrt fp_zeta apps fq_zeta code native H aff Hs aff' gens gens').
Theorem C63_made : forall c s d, made true c s d ->
  (forall w y z y' z', verify (fp_proof c) (Some s) (Some d) w y z y' z' = Some true) /\
  prod_backed (fp_proof c) (AppSpec.padded hs s d) /\
  (s <> f0 -> (s = f1 -> d = []) -> derived hs steps (AppSpec.padded hs s d)).
Proof.
  intros c s d Md.
  destruct (C57_made _ _ _ _ _ _ _ _ _ _ _ _ _ _ _ _ _ _ _ _ _ _ _ _ _ _ _ _ _ _ _ _ _ _ _ _ _ _ _ _ _ _ _ _ _ _ B (proj1 C59_wf) Hhs ltac:(apply Nat.ltb_lt; reflexivity) ltac:(apply Nat.leb_le; reflexivity) SS SN (proj2 (proj1 C59_squares)) eq_refl
    H aff Hs aff' heq gens gens' Hheq Hgens Haff true c s d Md) as ((u & V & _) & Ld & A). specialize (A eq_refl). split; [exact A|].
  assert (Bk : prod_backed (fp_proof c) (AppSpec.padded hs s d)).
  { refine (C62_made _ _ _ _ _ _ _ _ _ _ _ _ _ _ _ _ _ _ _ _ _ _ _ _ _ _ _ _ _ _ _ _ _ _ _ _ _ _ _ _ _ _ _ _ _ _ B (proj1 C59_wf) Hhs _ _ SS SN (proj2 (proj1 C59_squares)) eq_refl
      H aff Hs aff' heq gens gens' Hheq Hgens Hgens' Haff _ _ _ _ fp_betas true c s d Md eq_refl).
    - apply Nat.ltb_lt. reflexivity.
    - apply Nat.leb_le. reflexivity.
    - apply Nat.leb_le. reflexivity.
    - apply Nat.ltb_lt. reflexivity.
    - apply Nat.ltb_lt. reflexivity.
    - apply fp_many. vm_compute. discriminate. }
  split; [exact Bk|]. intros Ns E1.
  destruct (fp_many (4 * 2 ^ PROD_LG) ltac:(vm_compute; discriminate)) as (l & Nd & Ll & _).
  apply (C63_accepted (fp_proof c) s d l (vd_wf V)); auto.
  - apply (id_bound 32). pose proof (vd_id V) as Hi.
    destruct (native_builder _ _ _ _ _ _ _ _ _ _ _ _ _ _ _ _ _ _ _ _ _ _ _ _ _ _ _ _ _ _ _ _ _ _ _ _ _ _ _ _ B) as (nb & Ef & Lg & _).
    destruct (finalize_inv Fp TAFp fp_repr PROD_LG hash to_bytes from_uniform f_of_u64 nb native Ef) as (_ & dm & Ed & _). rewrite Lg in Ed. pose proof (proj1 (domain_new_inv Fp TAFp _ _ Ed)) as DS. change (ta_S TAFp) with 32 in DS.
    pose proof (Nat.log2_log2_up_spec (length apps + 15) ltac:(lia)) as [_ Hl]. pose proof (Nat.pow_le_mono_r 2 log2 32 ltac:(lia) DS) as Hp.
    set (X := 2 ^ 32) in *. clearbody X. lia.
  - split; [exact Nd|]. split; [exact Ll|]. intros y _. exists l. split; [exact Nd|]. split; [exact Ll|]. intros z _. exists f0, f0, f0. apply A.
Qed.
End Made.
End Sound.
End Build.
Print Assumptions C63_builds.
Print Assumptions C63_means.
Print Assumptions C63_accepted.
Print Assumptions C63_made.
