(** C64: the hash tree application of the crate's end-to-end tests. *)
From Coq Require Import List Arith NArith ZArith Bool Lia Ring Field.
From Verif Require Import FieldDef ModDef GF PrimeCert Pasta ArithModel FFTModel SparseModel CircModel CircSpec GadgetModel GadgetSpec GadgetProofs Runs ParSpec ParProofs ParProofs2
  SpongeModel SpongeSpec SpongeProofs StageModel RegModel RegSpec EscModel PcdModel PcdSpec PointSpec EndoSpec RecModel RecSpec RecProofs RecProofs3 CompileModel CompileSpec CompileSpec2 AppModel AppSpec AppProofs PastaModel Props_Pasta Props_Reg Props_App Props_Comp Props_Rec Props_Step Props_StepEx
  RecStageModel RecStageSpec VerifyModel VerifySpec VerifySpec2 Props_Verify Props_VerifyEx NestedModel FuseModel FuseSpec Props_Fuse Props_Seed HistSpec Props_Hist ProdModel ProdProofs Props_Prod MerkleModel MerkleSpec.
Import ListNotations.
Open Scope f_scope.
Local Open Scope nat_scope.

(** ** the steps *)
Section Steps.
  Variables (F : Field) (P : pparams F).
  Hypothesis WP : wf_params P.
  Hypothesis R2 : 2 <= pp_RATE P.
  Add Field FFu26 : (f_theory F).
  Variable wit : bool.
  Local Notation e := (@el F wit).
  Local Notation perm := (permutation F F 1%F wit P).
  Local Notation pg := (perm_gates F P).
  Lemma vec1 x : d_vec (d_absorb (pp_RATE P) (poseidon P) (d_new (pp_T P)) x) = x :: repeat 0%F (pp_T P - 1).
  Proof.
    pose proof (rate_ok F P WP) as [R1 RT]. unfold d_absorb. cbn [d_new d_squeezing d_pos]. replace (0 =? pp_RATE P) with false by (symmetry; apply Nat.eqb_neq; lia).
    cbn [d_put d_new d_vec d_pos]. unfold add_at. destruct (pp_T P) as [|t]; [lia|]. cbn [repeat firstn nth skipn app Nat.sub]. rewrite Nat.sub_0_r. f_equal. ring.
  Qed.
  Lemma vec2 x y : d_vec (d_absorb (pp_RATE P) (poseidon P) (d_absorb (pp_RATE P) (poseidon P) (d_new (pp_T P)) x) y) = x :: y :: repeat 0%F (pp_T P - 2).
  Proof.
    pose proof (rate_ok F P WP) as [R1 RT]. pose proof (vec1 x) as V. set (d1 := d_absorb (pp_RATE P) (poseidon P) (d_new (pp_T P)) x) in *.
    assert (E1 : d_squeezing d1 = false /\ d_pos d1 = 1).
    { unfold d1, d_absorb. cbn [d_new d_squeezing d_pos]. replace (0 =? pp_RATE P) with false by (symmetry; apply Nat.eqb_neq; lia). auto. }
    destruct E1 as (E1 & E2). unfold d_absorb. rewrite E1, E2. replace (1 =? pp_RATE P) with false by (symmetry; apply Nat.eqb_neq; lia).
    cbn [d_put d_vec]. rewrite V, E2. unfold add_at. destruct (pp_T P) as [|[|t]]; [lia|lia|]. cbn [repeat firstn nth skipn app Nat.sub]. rewrite Nat.sub_0_r. f_equal. f_equal. ring.
  Qed.
  Lemma leaf_tail x : runs wit (gbind (sp_new F F 1%F wit P) (fun m => gbind (sp_absorb F F P perm m (e x)) (fun m => gbind (sp_squeeze F F P perm m) (fun r =>
      match r with inl _ => GErr | inr (leaf, _) => GRet ([], [], [leaf]) end)))) (@nil (elem F F), @nil (elem F F), [e (phash P [x])]) pg (2 * pg).
  Proof.
    pose proof (rate_ok F P WP) as R. destruct (rep_new F wit P R) as [RN R0].
    eapply runs_bind0; [exact RN|].
    destruct (absorb_ok F wit P perm _ _ _ R (perm_hyp F wit P WP) _ _ x R0) as (m1 & Rm1 & g1 & c1 & H1 & G1 & C1).
    pose proof (squeeze_ok F wit P perm _ _ _ R (perm_hyp F wit P WP) _ _ Rm1) as Sq.
    pose proof (vec1 x) as V. set (d1 := d_absorb (pp_RATE P) (poseidon P) (d_new (pp_T P)) x) in *.
    assert (E1 : d_squeezing d1 = false /\ d_pos d1 = 1 /\ d_perms d1 = 0).
    { unfold d1, d_absorb. cbn [d_new d_squeezing d_pos]. replace (0 =? pp_RATE P) with false by (symmetry; apply Nat.eqb_neq; lia). auto. }
    destruct E1 as (E1 & E2 & E3). unfold d_squeeze in Sq. rewrite E1, E2 in Sq. cbn [Nat.eqb d_get d_permute d_pos d_vec d_perms] in Sq.
    destruct Sq as (m2 & Rm2 & g2 & c2 & H2 & G2 & C2). cbn [d_perms] in *. rewrite E3 in *. cbn [d_new d_perms] in G1, C1.
    eapply runs_cost; [eapply runs_bind; [exact H1|]; eapply runs_bind; [exact H2|]| |].
    - cbv beta iota. eapply runs_val; [apply runs_ret|]. unfold phash. cbn [length]. rewrite V. reflexivity.
    - lia.
    - lia.
  Qed.
  Lemma hash2_tail x y : runs wit (gbind (sp_new F F 1%F wit P) (fun m => gbind (sp_absorb F F P perm m (e x)) (fun m => gbind (sp_absorb F F P perm m (e y)) (fun m => gbind (sp_squeeze F F P perm m) (fun r =>
      match r with inl _ => GErr | inr (o, _) => GRet ([e x], [e y], [o]) end))))) ([e x], [e y], [e (phash P [x; y])]) pg (2 * pg).
  Proof.
    pose proof (rate_ok F P WP) as R. destruct (rep_new F wit P R) as [RN R0].
    eapply runs_bind0; [exact RN|].
    destruct (absorb_ok F wit P perm _ _ _ R (perm_hyp F wit P WP) _ _ x R0) as (m1 & Rm1 & g1 & c1 & H1 & G1 & C1).
    destruct (absorb_ok F wit P perm _ _ _ R (perm_hyp F wit P WP) _ _ y Rm1) as (m2 & Rm2 & g2 & c2 & H2 & G2 & C2).
    pose proof (squeeze_ok F wit P perm _ _ _ R (perm_hyp F wit P WP) _ _ Rm2) as Sq.
    pose proof (vec2 x y) as V. set (d1 := d_absorb (pp_RATE P) (poseidon P) (d_new (pp_T P)) x) in *.
    assert (E1 : d_squeezing d1 = false /\ d_pos d1 = 1 /\ d_perms d1 = 0).
    { unfold d1, d_absorb. cbn [d_new d_squeezing d_pos]. replace (0 =? pp_RATE P) with false by (symmetry; apply Nat.eqb_neq; lia). auto. }
    destruct E1 as (E1 & E2 & E3). set (d2 := d_absorb (pp_RATE P) (poseidon P) d1 y) in *.
    assert (F1 : d_squeezing d2 = false /\ d_pos d2 = 2 /\ d_perms d2 = 0).
    { unfold d2, d_absorb. rewrite E1, E2. replace (1 =? pp_RATE P) with false by (symmetry; apply Nat.eqb_neq; lia). cbn [d_put d_squeezing d_pos d_perms]. now rewrite E2, E3. }
    destruct F1 as (F1 & F2 & F3). unfold d_squeeze in Sq. rewrite F1, F2 in Sq. cbn [Nat.eqb d_get d_permute d_pos d_vec d_perms] in Sq.
    destruct Sq as (m3 & Rm3 & g3 & c3 & H3 & G3 & C3). cbn [d_perms] in *. rewrite E3, F3 in *. cbn [d_new d_perms] in G1, C1.
    eapply runs_cost; [eapply runs_bind; [exact H1|]; eapply runs_bind; [exact H2|]; eapply runs_bind; [exact H3|]| |].
    - cbv beta iota. eapply runs_val; [apply runs_ret|]. unfold phash. cbn [length]. rewrite V. reflexivity.
    - lia.
    - lia.
  Qed.
End Steps.

(** What the steps force and compute.  A satisfied run of [WitnessLeaf] puts out the hash
    of some element, and with a witness it puts out that witness's hash; a run of [Hash2]
    puts out the hash of its two inputs.  The sizes are one permutation. *)
Theorem C64_steps : forall (F : Field) (P : pparams F), wf_params P -> 2 <= pp_RATE P ->
  let g := 3 * (2 * (pp_FULL P / 2) * pp_T P + pp_PARTIAL P) in
  (forall dl dr d, holds (sb_run (leaf_body F P)) (dl, dr, d) <-> dl = [] /\ dr = [] /\ exists x, d = [phash P [x]]) /\
  (forall dl dr d, holds (sb_run (hash2_body F P)) (dl, dr, d) <-> exists x y, dl = [x] /\ dr = [y] /\ d = [phash P [x; y]]) /\
  (forall x s, simulate (leaf_witness F P F f1 true (Some x)) s = Some (([], [], [hon (phash P [x])]), bump s 1 g (2 * g))) /\
  (forall x y s, simulate (hash2_witness F P F f1 true (Some x) (Some y)) s = Some (([hon x], [hon y], [hon (phash P [x; y])]), bump s 2 g (2 * g))).
Proof.
  intros F P WP R2 g. split; [|split; [|split]].
  - intros dl dr d. cbn [leaf_body sb_run]. rewrite holds_bind. split.
    + intros (t & Ht & E). unfold leaf_witness in Ht. apply holds_bind in Ht. destruct Ht as (l & Hl & Ht). apply alloc_w in Hl. destruct Hl as (x & ->).
      apply (proj1 (leaf_tail F P WP R2 false x t)) in Ht. subst t. cbn [holds] in E. injection E as E1 E2 E3. subst dl dr d. split; [reflexivity|]. split; [reflexivity|]. now exists x.
    + intros (-> & -> & x & ->). exists ([], [], [wir (phash P [x])]). split; [|reflexivity]. unfold leaf_witness. apply holds_bind. exists (wir x). split; [apply alloc_w; now exists x|].
      now apply (proj2 (leaf_tail F P WP R2 false x _)).
  - intros dl dr d. cbn [hash2_body sb_run]. rewrite holds_bind. split.
    + intros (t & Ht & E). unfold hash2_witness in Ht. apply holds_bind in Ht. destruct Ht as (l & Hl & Ht). apply alloc_w in Hl. destruct Hl as (x & ->).
      apply holds_bind in Ht. destruct Ht as (r & Hr & Ht). apply alloc_w in Hr. destruct Hr as (y & ->).
      apply (proj1 (hash2_tail F P WP R2 false x y t)) in Ht. subst t. cbn [holds] in E. injection E as E1 E2 E3. subst dl dr d. now exists x, y.
    + intros (x & y & -> & -> & ->). exists ([wir x], [wir y], [wir (phash P [x; y])]). split; [|reflexivity]. unfold hash2_witness.
      apply holds_bind. exists (wir x). split; [apply alloc_w; now exists x|]. apply holds_bind. exists (wir y). split; [apply alloc_w; now exists y|].
      now apply (proj2 (hash2_tail F P WP R2 false x y _)).
  - intros x s. unfold leaf_witness. rewrite sim_bind, alloc_s. cbn [fst snd].
    etransitivity; [exact (leaf_tail F P WP R2 true x _)|]. f_equal. f_equal. rewrite bump_bump. reflexivity.
  - intros x y s. unfold hash2_witness. rewrite sim_bind, alloc_s. cbn [fst snd]. rewrite sim_bind, alloc_s. cbn [fst snd].
    etransitivity; [exact (hash2_tail F P WP R2 true x y _)|]. f_equal. f_equal. rewrite !bump_bump. reflexivity.
Qed.
Print Assumptions C64_steps.

(** ** the headers *)
Lemma padded_inj {F : Field} hs (s s' x x' : F) : 1 < hs -> AppSpec.padded hs s [x] = AppSpec.padded hs s' [x'] -> s = s' /\ x = x'.
Proof.
  intros L E. split; [apply (f_equal (fun l => last l f0)) in E; now rewrite !last_padded in E|].
  apply (f_equal (fun l => nth 0 l f0)) in E. exact E.
Qed.
(** The headers that a tree of these steps computes are the trivial one, the hash of an
    element, and the hash of the hashes of two elements. *)
Theorem C64_headers : forall (F : Field) (P : pparams F) (of_u : N -> F) hs, wf_params P -> 2 <= pp_RATE P -> 1 < hs ->
  of_u 1%N = f1 -> of_u 2%N <> f1 -> of_u 3%N <> f1 -> of_u 2%N <> of_u 3%N ->
  forall h, derived hs [step_of of_u (leaf_body F P); step_of of_u (hash2_body F P)] h <-> tree_header P of_u hs h.
Proof.
  intros F P of_u hs WP R2 Hhs U1 U2 U3 U23 h. destruct (C64_steps F P WP R2) as (SL & SH & _). split.
  - intros D. induction D as [|i st dl dr d Es Rl Ll Lr Ld _ IHl _ IHr]; [constructor|].
    destruct i as [|[|i]]; [| |destruct i; discriminate]; injection Es as <-; cbn [step_of ts_rel ts_out ts_left ts_right] in *.
    + apply SL in Rl. destruct Rl as (-> & -> & x & ->). change (suffix_value of_u (sb_out (leaf_body F P))) with (of_u 2%N). constructor.
    + apply SH in Rl. destruct Rl as (x & y & -> & -> & ->). change (suffix_value of_u (sb_out (hash2_body F P))) with (of_u 3%N).
      change (suffix_value of_u (sb_left (hash2_body F P))) with (of_u 2%N) in IHl. change (suffix_value of_u (sb_right (hash2_body F P))) with (of_u 2%N) in IHr.
      assert (K : forall v, tree_header P of_u hs (AppSpec.padded hs (of_u 2%N) [v]) -> exists x, v = phash P [x]).
      { intros v T. remember (AppSpec.padded hs (of_u 2%N) [v]) as h eqn:Eh. destruct T as [|x'|x' y'].
        - apply (f_equal (fun l => last l f0)) in Eh. rewrite !last_padded in Eh. exfalso. now apply U2.
        - apply padded_inj in Eh; [|exact Hhs]. destruct Eh as [_ <-]. now exists x'.
        - apply padded_inj in Eh; [|exact Hhs]. destruct Eh as [Eh _]. exfalso. now apply U23. }
      destruct (K _ IHl) as (x' & ->). destruct (K _ IHr) as (y' & ->). constructor.
  - assert (Lf : forall x, derived hs [step_of of_u (leaf_body F P); step_of of_u (hash2_body F P)] (AppSpec.padded hs (of_u 2%N) [phash P [x]])).
    { intros x. apply (dv_step F hs _ 0 (step_of of_u (leaf_body F P)) [] [] [phash P [x]]); try reflexivity; try (cbn [length]; lia).
      - apply SL. split; [reflexivity|]. split; [reflexivity|]. now exists x.
      - change (ts_left (step_of of_u (leaf_body F P))) with (of_u 1%N). rewrite U1. constructor.
      - change (ts_right (step_of of_u (leaf_body F P))) with (of_u 1%N). rewrite U1. constructor. }
    intros [|x|x y]; [constructor|apply Lf|].
    apply (dv_step F hs _ 1 (step_of of_u (hash2_body F P)) [phash P [x]] [phash P [y]] [phash P [phash P [x]; phash P [y]]]); try reflexivity; try (cbn [length]; lia).
    + apply SH. now exists (phash P [x]), (phash P [y]).
    + apply Lf.
    + apply Lf.
Qed.
Print Assumptions C64_headers.

(** ** the registered circuits *)
Section Circuits.
  Variables (F : Field) (P : pparams F) (of_u : N -> F) (hs : nat).
  Definition tree_code (p : place) : circuit F :=
    match p with
    | PStep IRerandomize => re_circuit hs (f1 : F) (f1 : F) []
    | PApp 0 => leaf_circuit F P of_u hs
    | PApp _ => hash2_circuit F P of_u hs
    | _ => fun W one => trivial_circuit F W one false hs (Some f1)
    end.
  Lemma adapted_p b wf : (forall (W1 W2 : Type) (o1 : W1) (o2 : W2) (RW : W1 -> W2 -> Prop), RW o1 o2 ->
      grel RW true (prel (prel (Forall2 (erel RW true)) (Forall2 (erel RW true))) (Forall2 (erel RW true))) (wf W1 o1) (wf W2 o2)) -> generic (adapted F of_u hs b wf).
  Proof.
    intros Hw W1 W2 o1 o2 RW Ho. unfold adapted. eapply gbind_p; [apply Hw; exact Ho|]. intros [[a1 b1] c1] [[a2 b2] c2] H. destruct H as [[H1 H2] H3]. cbn [fst snd] in H1, H2, H3.
    cbn [fst snd]. apply adapter_write_p; try exact Ho; constructor; assumption.
  Qed.
  Lemma leaf_generic : generic (leaf_circuit F P of_u hs).
  Proof.
    apply adapted_p. intros W1 W2 o1 o2 RW Ho. unfold leaf_witness.
    eapply gbind_p; [apply e_alloc_p; reflexivity|]. intros x1 x2 Hx.
    eapply gbind_p; [apply sp_new_p; [exact Ho|reflexivity]|]. intros m1 m2 Hm.
    eapply gbind_p; [apply sp_absorb_p; [intros; apply permutation_p; try exact Ho; try reflexivity; assumption|exact Hm|exact Hx]|]. intros n1 n2 Hn.
    eapply gbind_p; [apply sp_squeeze_p; [intros; apply permutation_p; try exact Ho; try reflexivity; assumption|exact Hn]|]. intros r1 r2 Hr.
    destruct Hr as [er ? <-|[h1 ?] [h2 ?] Hr]; [apply gr_err|]. destruct Hr as [Hr _]. cbn [fst] in Hr. apply gr_ret. repeat split; cbn [fst snd]; auto.
  Qed.
  Lemma hash2_generic : generic (hash2_circuit F P of_u hs).
  Proof.
    apply adapted_p. intros W1 W2 o1 o2 RW Ho. unfold hash2_witness.
    eapply gbind_p; [apply e_alloc_p; reflexivity|]. intros x1 x2 Hx.
    eapply gbind_p; [apply e_alloc_p; reflexivity|]. intros y1 y2 Hy.
    eapply gbind_p; [apply sp_new_p; [exact Ho|reflexivity]|]. intros m1 m2 Hm.
    eapply gbind_p; [apply sp_absorb_p; [intros; apply permutation_p; try exact Ho; try reflexivity; assumption|exact Hm|exact Hx]|]. intros n1 n2 Hn.
    eapply gbind_p; [apply sp_absorb_p; [intros; apply permutation_p; try exact Ho; try reflexivity; assumption|exact Hn|exact Hy]|]. intros q1 q2 Hq.
    eapply gbind_p; [apply sp_squeeze_p; [intros; apply permutation_p; try exact Ho; try reflexivity; assumption|exact Hq]|]. intros r1 r2 Hr.
    destruct Hr as [er ? <-|[h1 ?] [h2 ?] Hr]; [apply gr_err|]. destruct Hr as [Hr _]. cbn [fst] in Hr. apply gr_ret. repeat split; cbn [fst snd]; auto.
  Qed.
  Lemma tree_generic p : generic (tree_code p).
  Proof. destruct p as [id|[]|[|j]]; [apply triv_generic|apply re_generic|apply triv_generic|apply leaf_generic|apply hash2_generic]. Qed.
End Circuits.
(** ** over the Pasta cycle *)
Definition tree_steps : list (tstep Fp) := [step_of fp_of_u (leaf_body Fp PoseidonFp); step_of fp_of_u (hash2_body Fp PoseidonFp)].
Lemma rate_Fp : 2 <= pp_RATE PoseidonFp.
Proof. apply Nat.leb_le. reflexivity. Qed.
Lemma adapted_wires {F : Field} (of_u : N -> F) hs b (w : forall W : Type, W -> G F W (list (elem F W) * list (elem F W) * list (elem F W))) :
  sb_run b = gbind (w F f1) (fun t => GRet (wires_of F t)) ->
  (forall t, holds (w F f1) t -> t = (map wir (fst (fst (wires_of F t))), map wir (snd (fst (wires_of F t))), map wir (snd (wires_of F t)))) ->
  forall res, holds (adapted F of_u hs b w F f1) res -> holds (gbind (sb_run b) (fun t =>
     adapter_write F F f1 false hs (Some (suffix_value of_u (sb_left b))) (Some (suffix_value of_u (sb_right b))) (Some (suffix_value of_u (sb_out b)))
       (EncGadget (map wir (fst (fst t)))) (EncGadget (map wir (snd (fst t)))) (EncGadget (map wir (snd t))))) res.
Proof.
  intros Eb Wt res H. unfold adapted in H. apply holds_bind in H. destruct H as (t & Ht & H). apply holds_bind. exists (wires_of F t). split.
  - rewrite Eb. apply holds_bind. exists t. split; [exact Ht|reflexivity].
  - pose proof (Wt t Ht) as E. destruct (wires_of F t) as [[l r] o] eqn:Ew. cbn [fst snd] in *. rewrite E in H. exact H.
Qed.
Lemma leaf_wires {F : Field} (P : pparams F) : wf_params P -> 2 <= pp_RATE P -> forall t, holds (leaf_witness F P F f1 false None) t ->
  t = (map wir (fst (fst (wires_of F t))), map wir (snd (fst (wires_of F t))), map wir (snd (wires_of F t))).
Proof.
  intros WP R2 t Ht. unfold leaf_witness in Ht. apply holds_bind in Ht. destruct Ht as (l & Hl & Ht). apply alloc_w in Hl. destruct Hl as (x & ->).
  apply (proj1 (leaf_tail F P WP R2 false x t)) in Ht. rewrite Ht. reflexivity.
Qed.
Lemma hash2_wires {F : Field} (P : pparams F) : wf_params P -> 2 <= pp_RATE P -> forall t, holds (hash2_witness F P F f1 false None None) t ->
  t = (map wir (fst (fst (wires_of F t))), map wir (snd (fst (wires_of F t))), map wir (snd (wires_of F t))).
Proof.
  intros WP R2 t Ht. unfold hash2_witness in Ht. apply holds_bind in Ht. destruct Ht as (l & Hl & Ht). apply alloc_w in Hl. destruct Hl as (x & ->).
  apply holds_bind in Ht. destruct Ht as (r & Hr & Ht). apply alloc_w in Hr. destruct Hr as (y & ->).
  apply (proj1 (hash2_tail F P WP R2 false x y t)) in Ht. rewrite Ht. reflexivity.
Qed.
Lemma returns_mono {F Fs : Field} T lg repr cb hs M N' P of_u tag nbits gen fsqrt zeta zeta' native (H : FMod F) aff Hs aff' gens gens' l r ol or bl (K K' : fproof F Fs H -> Prop) :
  (forall c, K c -> K' c) -> returns F Fs T lg repr cb hs M N' P of_u tag nbits gen fsqrt zeta zeta' native H aff Hs aff' gens gens' l r ol or bl K ->
  returns F Fs T lg repr cb hs M N' P of_u tag nbits gen fsqrt zeta zeta' native H aff Hs aff' gens gens' l r ol or bl K'.
Proof.
  intros KK. unfold Props_Seed.returns. destruct (fuse_core _ _ _ _ _ _ _ _ _ _ _ _ _ _ _ _ _ _ _ _ _ _ _ _ _ _ _ _) as [[ | | ]|R]; intros X; try exact X.
  intros Ft. destruct (X Ft) as (c & Kc). exists c. exact (KK c Kc).
Qed.
(** the runs of the registered circuits *)
Lemma leaf_run {F : Field} (P : pparams F) (of_u : N -> F) hs : wf_params P -> 2 <= pp_RATE P -> 1 < hs -> of_u 1%N = f1 -> forall x,
  holds (leaf_circuit F P of_u hs F f1) (map wir (AppSpec.padded hs f1 [] ++ AppSpec.padded hs f1 [] ++ AppSpec.padded hs (of_u 2%N) [phash P [x]])).
Proof.
  intros WP R2 Hhs U1 x. unfold leaf_circuit, adapted. apply holds_bind. exists ([], [], [wir (phash P [x])]). split.
  - unfold leaf_witness. apply holds_bind. exists (wir x). split; [apply alloc_w; now exists x|]. now apply (proj2 (leaf_tail F P WP R2 false x _)).
  - cbn [fst snd leaf_body sb_left sb_right sb_out]. apply (proj1 (C44_adapter F hs _ _ _ [] [] [phash P [x]])). split; [cbn [length]; lia|].
    change (suffix_value of_u trivial_suffix) with (of_u 1%N). change (suffix_value of_u leaf_suffix) with (of_u 2%N). now rewrite U1.
Qed.
Lemma hash2_run {F : Field} (P : pparams F) (of_u : N -> F) hs : wf_params P -> 2 <= pp_RATE P -> 1 < hs -> forall x y,
  holds (hash2_circuit F P of_u hs F f1) (map wir (AppSpec.padded hs (of_u 2%N) [x] ++ AppSpec.padded hs (of_u 2%N) [y] ++ AppSpec.padded hs (of_u 3%N) [phash P [x; y]])).
Proof.
  intros WP R2 Hhs x y. unfold hash2_circuit, adapted. apply holds_bind. exists ([wir x], [wir y], [wir (phash P [x; y])]). split.
  - unfold hash2_witness. apply holds_bind. exists (wir x). split; [apply alloc_w; now exists x|]. apply holds_bind. exists (wir y). split; [apply alloc_w; now exists y|].
    now apply (proj2 (hash2_tail F P WP R2 false x y _)).
  - cbn [fst snd hash2_body sb_left sb_right sb_out]. apply (proj1 (C44_adapter F hs _ _ _ [x] [y] [phash P [x; y]])). split; [cbn [length]; lia|reflexivity].
Qed.
(** the registered circuits mean the steps (any header size above one) *)
Theorem C64_means : forall hs, 1 < hs -> code_means hs tree_steps (tree_code Fp PoseidonFp fp_of_u hs).
Proof.
  intros hs Hhs. pose proof (proj1 C59_wf) as WP. pose proof rate_Fp as R2. destruct (C64_steps Fp PoseidonFp WP R2) as (SL & SH & _).
  change tree_steps with (map (step_of fp_of_u) [leaf_body Fp PoseidonFp; hash2_body Fp PoseidonFp]).
  refine (C63_means (tree_code Fp PoseidonFp fp_of_u hs) hs [leaf_body Fp PoseidonFp; hash2_body Fp PoseidonFp] f1 [] (Nat.lt_trans _ _ _ Nat.lt_0_1 Hhs) (Nat.lt_trans _ _ _ Nat.lt_0_1 Hhs) _ eq_refl eq_refl _ _).
  - intros b i [<-|[<-|[]]] [E|E]; cbn [leaf_body hash2_body sb_left sb_right] in E; [injection E as <-; reflexivity|injection E as <-; reflexivity|discriminate E|discriminate E].
  - intros i b res Eb. destruct i as [|[|i]]; [| |destruct i; discriminate Eb].
    + apply (f_equal (fun o => match o with Some x => x | None => b end)) in Eb. cbn [nth_error] in Eb. rewrite <- Eb.
      exact (adapted_wires fp_of_u hs (leaf_body Fp PoseidonFp) (fun W one => leaf_witness Fp PoseidonFp W one false None) eq_refl (leaf_wires PoseidonFp WP R2) res).
    + apply (f_equal (fun o => match o with Some x => x | None => b end)) in Eb. cbn [nth_error] in Eb. rewrite <- Eb.
      exact (adapted_wires fp_of_u hs (hash2_body Fp PoseidonFp) (fun W one => hash2_witness Fp PoseidonFp W one false None None) eq_refl (hash2_wires PoseidonFp WP R2) res).
  - constructor; [|constructor; [|constructor]].
    + intros dl dr d Ho s dt Hs. apply SL in Ho. destruct Ho as (-> & -> & _). right. destruct Hs as [Hs|Hs]; injection Hs as -> ->; auto.
    + intros dl dr d Ho s dt Hs. left. exists 0%N. destruct Hs as [Hs|Hs]; injection Hs as -> ->; (split; [reflexivity|discriminate]).
Qed.
Print Assumptions C64_means.

(** tests/nontrivial.rs:12 the size of its headers *)
Definition TREE_HS : nat := 4.
Definition cnt_fits (n : nat) (k : option (nat * nat)) : bool := match k with Some (g, c) => (g <=? n) && (c <? 4 * n) | None => false end.
Lemma cnt_fits_ok {F : Field} n stages (c : staged F) : cnt_fits n (staged_counts stages c) = true -> CompileSpec2.registered n stages c.
Proof.
  unfold cnt_fits. destruct (staged_counts stages c) as [[g k]|] eqn:E; [|discriminate]. intros H. apply andb_true_iff in H. destruct H as [H1 H2].
  apply (counts_registered n stages c g k E). split; [now apply Nat.leb_le|now apply Nat.ltb_lt].
Qed.
Lemma tree_objects (x0 x1 x2 x3 yc onec hc : Fp) fsqrt log2 : log2 <= 13 -> forall id, prod_obj x0 x1 x2 x3 yc onec hc TREE_HS fsqrt log2 id <> None.
Proof.
  intros L id. unfold prod_obj, native_obj. destruct id; match goal with |- mask_obj _ _ <> None => apply mask_some; vm_compute; reflexivity | _ => apply multi_none; apply cnt_fits_ok end.
  - assert (Q : forallb (fun k => cnt_fits (2 ^ PROD_LG) (staged_counts (hashes_stages Fp TREE_HS NUM_GROUPS PoseidonFp) (s_hashes_1 Fp CURVE_B TREE_HS NUM_GROUPS PoseidonFp fp_of_u RAGU_TAG k))) (seq 0 14) = true) by (vm_compute; reflexivity).
    rewrite forallb_forall in Q. apply (Q log2). apply in_seq. lia.
  - vm_compute. reflexivity.
  - vm_compute. reflexivity.
  - vm_compute. reflexivity.
  - generalize (internal_omega TAFp). intros om. vm_compute. reflexivity.
Qed.
Lemma tree_fits p : step_place 2 p -> code_fits PROD_LG (3 * TREE_HS) (tree_code Fp PoseidonFp fp_of_u TREE_HS p) = true.
Proof. destruct p as [|[]|[|j]]; cbn [step_place]; [intros []| | | |]; intros; vm_compute; reflexivity. Qed.

Section Tree.
Variables (hash : list N -> list N) (to_bytes : Fp -> list N) (from_uniform : list N -> Fp) (f_of_u64 : N -> Fp).
Variables (hash' : list N -> list N) (to_bytes' : Fq -> list N) (from_uniform' : list N -> Fq) (f_of_u64' : N -> Fq).
Variables (x0 x1 x2 x3 yc onec hc : Fp) (x0' x1' x2' x3' yc' onec' hc' : Fq) (fsqrt : Fp -> option Fp).
Definition tree_obj (p : place) : option (cobj Fp) := code_obj x0 x1 x2 x3 yc onec hc PROD_LG (tree_code Fp PoseidonFp fp_of_u TREE_HS p).
(** tests/nontrivial.rs:13-19 the two steps as registered *)
Definition tree_apps : list (step Fp) :=
  [AppModel.mk_step (StApplication 0) (mk_header trivial_suffix 0) (mk_header trivial_suffix 0) (mk_header leaf_suffix 1) (tree_obj (PApp 0));
   AppModel.mk_step (StApplication 1) (mk_header leaf_suffix 1) (mk_header leaf_suffix 1) (mk_header node_suffix 2) (tree_obj (PApp 1))].
Local Notation tree_built := (prod_built hash to_bytes from_uniform f_of_u64 hash' to_bytes' from_uniform' f_of_u64' x0 x1 x2 x3 yc onec hc x0' x1' x2' x3' yc' onec' hc' fsqrt
  tree_apps (fun i => tree_obj (PStep i)) (tree_code Fp PoseidonFp fp_of_u TREE_HS) TREE_HS).
(** the application can be built (tests/nontrivial.rs:12-19 [finalize]) *)
Theorem C64_builds : exists native nested, tree_built native nested.
Proof.
  assert (Ob : forall p, step_place 2 p -> tree_obj p <> None /\ exists outs, couts (tree_code Fp PoseidonFp fp_of_u TREE_HS p) = Some outs /\ length outs = 3 * TREE_HS /\
    tree_obj p = prog_cobj x0 x1 x2 x3 yc onec hc PROD_LG (cbody (tree_code Fp PoseidonFp fp_of_u TREE_HS p)) outs).
  { intros p Sp. exact (code_fits_ok x0 x1 x2 x3 yc onec hc PROD_LG (3 * TREE_HS) _ (tree_fits p Sp)). }
  assert (R : exists b, register_steps Fp Fq (ab_new Fp Fq) tree_apps = Some b).
  { unfold tree_apps. pose proof (proj1 (Ob (PApp 0) Nat.lt_0_2)) as N0. pose proof (proj1 (Ob (PApp 1) Nat.lt_1_2)) as N1.
    destruct (tree_obj (PApp 0)) as [o0|]; [|congruence]. destruct (tree_obj (PApp 1)) as [o1|]; [|congruence]. eexists. reflexivity. }
  destruct R as (b & R).
  refine (proj2 (prod_builds hash to_bytes from_uniform f_of_u64 hash' to_bytes' from_uniform' f_of_u64' x0 x1 x2 x3 yc onec hc x0' x1' x2' x3' yc' onec' hc' fsqrt tree_apps (fun i => tree_obj (PStep i)) (tree_code Fp PoseidonFp fp_of_u TREE_HS)
    TREE_HS (tree_objects x0 x1 x2 x3 yc onec hc fsqrt) b R _ _) _).
  - intros p Sp. split; [apply tree_generic|]. destruct (Ob p Sp) as [_ X].
    destruct p as [id|i|[|[|j]]]; cbn [step_place] in Sp; [destruct Sp|exact X|exact X|exact X|]. exfalso. clear X. cbn [tree_apps length] in Sp. lia.
  - intros i. exact (proj1 (Ob (PStep i) Logic.I)).
  - cbn [tree_apps length]. apply Nat.leb_le. reflexivity.
Qed.

(** What an accepted proof shows.  The data of a leaf is the hash of some element, the
    data of a node the hash of the hashes of two. *)
Section Accepted.
Variables (native : registry Fp) (nested : registry Fq).
Hypothesis B : tree_built native nested.
Hypotheses (SS : forall v s : Fp, fsqrt v = Some s -> fmul s s = v) (SN : forall v : Fp, fsqrt v = None -> ~ square v).
Variables (H : FMod Fp) (heq : H -> H -> bool) (gens : list H).
Hypothesis Hheq : forall a b : H, heq a b = true <-> a = b.
Hypothesis Hgens : 4 * 2 ^ PROD_LG <= length gens.
Definition shows_preimages (s : Fp) (d : list Fp) : Prop :=
  tree_header PoseidonFp fp_of_u TREE_HS (AppSpec.padded TREE_HS s d) /\
  forall v, d = [v] -> (s = fp_of_u 2 -> exists x, v = phash PoseidonFp [x]) /\
    (s = fp_of_u 3 -> exists x y, v = phash PoseidonFp [phash PoseidonFp [x]; phash PoseidonFp [y]]).
Lemma fp_u k : (k < 2 ^ 64)%N -> fp_of_u k = f1 -> k = 1%N.
Proof. intros L E. apply fp_of_u_inj; [exact L|reflexivity|]. rewrite E. symmetry. exact lFp_one. Qed.
Lemma fp_u23 : fp_of_u 2 <> fp_of_u 3.
Proof. intros E. apply (fp_of_u_inj 2 3) in E; [discriminate E|reflexivity|reflexivity]. Qed.
Lemma shows s d : derived TREE_HS tree_steps (AppSpec.padded TREE_HS s d) -> shows_preimages s d.
Proof.
  intros D.
  assert (T : tree_header PoseidonFp fp_of_u TREE_HS (AppSpec.padded TREE_HS s d)).
  { apply (C64_headers Fp PoseidonFp fp_of_u TREE_HS (proj1 C59_wf) rate_Fp (proj1 (Nat.ltb_lt 1 TREE_HS) eq_refl) lFp_one) in D; [exact D| | |exact fp_u23].
    - intros E. apply fp_u in E; [discriminate E|reflexivity].
    - intros E. apply fp_u in E; [discriminate E|reflexivity]. }
  split; [exact T|]. intros v ->. revert T. generalize (proj1 (Nat.ltb_lt 1 TREE_HS) eq_refl). generalize TREE_HS. intros hs L T.
  remember (AppSpec.padded hs s [v]) as h eqn:Eh. destruct T as [|x'|x' y'].
  - apply (f_equal (fun l => last l f0)) in Eh. rewrite !last_padded in Eh. rewrite <- Eh. split; intros E; symmetry in E; (apply fp_u in E; [discriminate E|reflexivity]).
  - apply padded_inj in Eh; [|exact L]. destruct Eh as [<- <-]. split; [intros _; now exists x'|]. intros E. exfalso. exact (fp_u23 E).
  - apply padded_inj in Eh; [|exact L]. destruct Eh as [<- <-]. split; [|intros _; now exists x', y']. intros E. exfalso. exact (fp_u23 (eq_sym E)).
Qed.
Theorem C64_accepted : forall (p : proof Fp Fq H) s d ys, wf_proof (2 ^ PROD_LG) p -> (pf_circuit_id p < 2 ^ 32)%N ->
  often Fp Fq TAFp TAFq PROD_LG fp_repr fq_repr CURVE_B TREE_HS 9 native nested H heq gens p (Some s) (Some d) ys ->
  s <> f0 -> (s = f1 -> d = []) -> prod_backed tree_apps TREE_HS native H p (AppSpec.padded TREE_HS s d) -> shows_preimages s d.
Proof.
  intros p s d ys Wp Hc Of Ns E1 Bk. apply shows.
  exact (C63_accepted _ _ _ _ _ _ _ _ _ _ _ _ _ _ _ _ _ _ _ _ _ _ _ _ _ _ TREE_HS (proj1 (Nat.ltb_lt 0 TREE_HS) eq_refl) native nested B SS SN H heq gens Hheq Hgens tree_steps eq_refl (C64_means TREE_HS (proj1 (Nat.ltb_lt 1 TREE_HS) eq_refl)) p s d ys Wp Hc Of Ns E1 Bk).
Qed.
(** The proofs the application makes are accepted at every challenge, and show it. *)
Section Made.
Variables (aff : H -> option (Fq * Fq)) (Hs : FMod Fq) (aff' : Hs -> option (Fp * Fp)) (gens' : list Hs).
Hypothesis Hgens' : 4 * 2 ^ PROD_LG <= length gens'.
Hypothesis Haff : forall c xy, aff' c = Some xy -> on_curve CURVE_B xy.
Local Notation made := (made Fp Fq TAFp PROD_LG fp_repr CURVE_B TREE_HS GROUP_SIZE NUM_GROUPS PoseidonFp fp_of_u RAGU_TAG UENDO_BITS GENERATOR fsqrt fp_zeta tree_apps fq_zeta (tree_code Fp PoseidonFp fp_of_u TREE_HS) native H aff Hs aff' gens gens').
Theorem C64_made : forall c s d, made true c s d ->
  (forall w y z y' z', verify TAFp TAFq PROD_LG fp_repr fq_repr heq gens CURVE_B TREE_HS 9 native nested (fp_proof c) (Some s) (Some d) w y z y' z' = Some true) /\
  (s <> f0 -> (s = f1 -> d = []) -> shows_preimages s d).
Proof.
  intros c s d Md.
  destruct (C63_made _ _ _ _ _ _ _ _ _ _ _ _ _ _ _ _ _ _ _ _ _ _ _ _ _ _ TREE_HS (proj1 (Nat.ltb_lt 0 TREE_HS) eq_refl) native nested B SS SN H heq gens Hheq Hgens tree_steps eq_refl (C64_means TREE_HS (proj1 (Nat.ltb_lt 1 TREE_HS) eq_refl))
    aff Hs aff' gens' Hgens' Haff c s d Md) as (A & _ & D). split; [exact A|]. intros Ns E1. apply shows, D; assumption.
Qed.
(** The two calls of the crate's test (tests/nontrivial.rs:23-51), for every witness and
    all leaves: seeding [WitnessLeaf] with x, and fusing two leaves by [Hash2], return
    proofs that carry the hashes and are accepted at every challenge, unless the run
    meets one of the exceptional challenges or a point at infinity (C58). *)
Local Notation returns := (returns Fp Fq TAFp PROD_LG fp_repr CURVE_B TREE_HS GROUP_SIZE NUM_GROUPS PoseidonFp fp_of_u RAGU_TAG UENDO_BITS GENERATOR fsqrt fp_zeta fq_zeta native H aff Hs aff' gens gens').
Definition carries (c : fproof Fp Fq H) (s : Fp) (d : list Fp) : Prop := (made true c s d /\ forall w y z y' z', verify TAFp TAFq PROD_LG fp_repr fq_repr heq gens CURVE_B TREE_HS 9 native nested (fp_proof c) (Some s) (Some d) w y z y' z' = Some true).
Local Notation trivial := (trivial_proof Fp Fq H Hs aff' PROD_LG native gens gens' TREE_HS 9).
Theorem C64_run :
  (forall c0 x bl, trivial = Some c0 -> (forall f, br_commitment (pf_bridge (fp_proof c0) f) <> None) ->
    returns c0 c0 (AppSpec.padded TREE_HS f1 []) (AppSpec.padded TREE_HS f1 []) bl (fun c => carries c (fp_of_u 2) [phash PoseidonFp [x]])) /\
  (forall l r a b bl, made true l (fp_of_u 2) [a] -> made true r (fp_of_u 2) [b] ->
    returns l r (AppSpec.padded TREE_HS (fp_of_u 2) [a]) (AppSpec.padded TREE_HS (fp_of_u 2) [b]) bl (fun c => carries c (fp_of_u 3) [phash PoseidonFp [a; b]])).
Proof.
  assert (Wm : forall a : list Fp, map (ew Fp Fp) (map wir a) = a) by (intros a; rewrite map_map; apply map_id).
  pose proof (proj1 (Nat.ltb_lt 1 TREE_HS) eq_refl) as H1. pose proof (proj1 (Nat.ltb_lt 0 TREE_HS) eq_refl) as H0.
  split.
  - intros c0 x bl E Fin.
    refine (returns_mono _ _ _ _ _ _ _ _ _ _ _ _ _ _ _ _ _ _ _ _ _ _ _ _ _ _ _ _ _ _ (C58_seed _ _ _ _ _ _ _ _ _ _ _ _ _ _ _ _ _ _ _ _ _ _ _ _ _ _ _ _ _ _ _ _ _ _ _ _ _ _ _ _ _ _ _ _ _ _ B (proj1 C59_wf) H0 (proj1 (Nat.ltb_lt 0 GROUP_SIZE) eq_refl) (proj1 (Nat.leb_le 22 (GROUP_SIZE * NUM_GROUPS)) eq_refl)
      SS SN (proj2 (proj1 C59_squares)) eq_refl H aff Hs aff' heq gens gens' Hheq Hgens Hgens' Haff c0 (PApp 0) 15%N _ (fp_of_u 2) [phash PoseidonFp [x]] bl E Fin Nat.lt_0_2 eq_refl H1
      (leaf_run PoseidonFp fp_of_u TREE_HS (proj1 C59_wf) rate_Fp H1 lFp_one x) (Wm _))).
    intros c (_ & Md & A). exact (conj Md A).
  - intros l r a b bl Ml Mr.
    refine (returns_mono _ _ _ _ _ _ _ _ _ _ _ _ _ _ _ _ _ _ _ _ _ _ _ _ _ _ _ _ _ _ (C58_fuse _ _ _ _ _ _ _ _ _ _ _ _ _ _ _ _ _ _ _ _ _ _ _ _ _ _ _ _ _ _ _ _ _ _ _ _ _ _ _ _ _ _ _ _ _ _ B (proj1 C59_wf) H0 (proj1 (Nat.ltb_lt 0 GROUP_SIZE) eq_refl) (proj1 (Nat.leb_le 22 (GROUP_SIZE * NUM_GROUPS)) eq_refl)
      SS SN (proj2 (proj1 C59_squares)) eq_refl H aff Hs aff' heq gens gens' Hheq Hgens Hgens' Haff true l (fp_of_u 2) [a] true r (fp_of_u 2) [b] (PApp 1) 16%N _ (fp_of_u 3) [phash PoseidonFp [a; b]] bl Ml Mr (or_introl (conj eq_refl eq_refl)) Nat.lt_1_2 eq_refl H1
      (hash2_run PoseidonFp fp_of_u TREE_HS (proj1 C59_wf) rate_Fp H1 a b) (Wm _))).
    intros c (_ & Md & A). exact (conj Md A).
Qed.
End Made.
End Accepted.
End Tree.
Print Assumptions C64_builds.
Print Assumptions C64_accepted.
Print Assumptions C64_made.
Print Assumptions C64_run.
