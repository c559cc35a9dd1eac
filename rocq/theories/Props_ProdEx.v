(** C63: an application of the production instantiation, with headers of 65 elements and
    one step, whose output is the square of its witness. *)
From Coq Require Import List Arith NArith ZArith Bool Lia Ring Field.
From Verif Require Import FieldDef ModDef GF PrimeCert Pasta ArithModel FFTModel SparseModel CircModel CircSpec GadgetModel GadgetSpec GadgetProofs ParSpec ParProofs ParProofs2
  SpongeModel StageModel RegModel RegSpec EscModel PcdModel PcdSpec PointSpec EndoSpec RecModel CompileModel CompileSpec CompileSpec2 AppModel AppSpec AppProofs PastaModel Props_Pasta Props_Reg Props_App Props_Comp Props_Rec Props_Step Props_StepEx
  VerifyModel VerifySpec VerifySpec2 Props_Verify Props_VerifyEx NestedModel FuseModel HistSpec Props_Hist ProdModel ProdProofs Props_Prod.
Import ListNotations.
Open Scope f_scope.
Local Open Scope nat_scope.

(** There is a square root function.  (The one of pasta_curves is not modelled; this one
    searches the field, and is never run.) *)
Lemma fp_sqrt_exists : exists fsqrt : Fp -> option Fp, (forall v s, fsqrt v = Some s -> fmul s s = v) /\ (forall v, fsqrt v = None -> ~ square v).
Proof.
  assert (All : exists l : list Fp, forall a, In a l).
  { exists (map (fun i => lFp (Z.of_nat i)) (seq 0 (Z.to_nat p_pallas))). intros a. apply in_map_iff. exists (Z.to_nat (vFp a)).
    pose proof (val_range p_pallas a) as R. change (val p_pallas a) with (vFp a) in R. split; [|apply in_seq; lia].
    apply gf_ext. change (val p_pallas ?x) with (vFp x). rewrite lFp_val, Z2Nat.id by lia. apply Z.mod_small. lia. }
  destruct All as (l & All). exists (fun v => find (fun s => feqb (fmul s s) v) l). split.
  - intros v s E. apply find_some in E. now apply feqb_true.
  - intros v E (s & Es). pose proof (find_none _ _ E s (All s)) as X. cbv beta in X. assert (feqb (fmul s s) v = true) by now apply feqb_true. congruence.
Qed.

Definition sq_app {F : Field} (hs : nat) (l r o : F) : circuit F := fun W one =>
  gbind (e_alloc F W None) (fun x => gbind (e_square F W x) (fun s =>
    adapter_write F W one false hs (Some l) (Some r) (Some o) (EncGadget []) (EncGadget []) (EncGadget [s]))).
Lemma sq_generic {F : Field} hs (l r o : F) : generic (sq_app hs l r o).
Proof.
  intros W1 W2 o1 o2 RW Ho.
  apply (gbind_p RW true (erel RW true)); [apply e_alloc_p; reflexivity|]. intros x1 x2 Hx.
  apply (gbind_p RW true (erel RW true)); [apply e_square_p; exact Hx|]. intros s1 s2 Hs.
  apply adapter_write_p; try exact Ho; try reflexivity; constructor; repeat constructor; apply Hs.
Qed.
Definition prod_app : circuit Fp := sq_app HEADER_SIZE (fp_of_u 1) (fp_of_u 1) (fp_of_u 8).
Definition prod_body : sbody Fp := mk_sbody trivial_suffix trivial_suffix (SufApplication 6)
  (gbind (e_alloc Fp Fp None) (fun x => gbind (e_square Fp Fp x) (fun s => GRet ([], [], [ew _ _ s])))).
Definition prod_code (p : place) : circuit Fp :=
  match p with
  | PStep IRerandomize => re_circuit HEADER_SIZE (lFp 8) (f1 : Fp) [lFp 12]
  | PApp _ => prod_app
  | _ => fun W one => trivial_circuit Fp W one false HEADER_SIZE (Some (f1 : Fp))
  end.
Lemma prod_generic p : generic (prod_code p).
Proof.
  destruct p as [id|[]|j].
  - exact (triv_generic HEADER_SIZE (f1 : Fp)).
  - exact (re_generic HEADER_SIZE (lFp 8) (f1 : Fp) [lFp 12]).
  - exact (triv_generic HEADER_SIZE (f1 : Fp)).
  - exact (sq_generic HEADER_SIZE (fp_of_u 1) (fp_of_u 1) (fp_of_u 8)).
Qed.
Lemma prod_code_fits p : step_place 1 p -> code_fits PROD_LG (3 * HEADER_SIZE) (prod_code p) = true.
Proof. destruct p as [|[]|]; cbn [step_place]; [intros []| | |]; intros; vm_compute; reflexivity. Qed.

Section Ex.
Variables (hash : list N -> list N) (to_bytes : Fp -> list N) (from_uniform : list N -> Fp) (f_of_u64 : N -> Fp).
Variables (hash' : list N -> list N) (to_bytes' : Fq -> list N) (from_uniform' : list N -> Fq) (f_of_u64' : N -> Fq).
Variables (x0 x1 x2 x3 yc onec hc : Fp) (x0' x1' x2' x3' yc' onec' hc' : Fq) (fsqrt : Fp -> option Fp).
Let prod_aobj : option (cobj Fp) := code_obj x0 x1 x2 x3 yc onec hc PROD_LG prod_app.
Definition prod_steps : list (step Fp) :=
  [AppModel.mk_step (StApplication 0) (mk_header trivial_suffix 0) (mk_header trivial_suffix 0) (mk_header (SufApplication 6) 1) prod_aobj].
Definition prod_sobj (i : istep) : option (cobj Fp) := code_obj x0 x1 x2 x3 yc onec hc PROD_LG (prod_code (PStep i)).
(** it can be built, whatever the hashes and constants *)
Example C63_builds_ex : exists native nested,
  prod_built hash to_bytes from_uniform f_of_u64 hash' to_bytes' from_uniform' f_of_u64' x0 x1 x2 x3 yc onec hc x0' x1' x2' x3' yc' onec' hc' fsqrt prod_steps prod_sobj prod_code HEADER_SIZE native nested.
Proof.
  destruct (code_fits_ok x0 x1 x2 x3 yc onec hc PROD_LG (3 * HEADER_SIZE) prod_app (prod_code_fits (PApp 0) (le_n 1))) as [No _].
  assert (R : exists b, register_steps Fp Fq (ab_new Fp Fq) prod_steps = Some b).
  { unfold prod_steps, prod_aobj. destruct (code_obj x0 x1 x2 x3 yc onec hc PROD_LG prod_app) as [o|]; [|congruence]. eexists. reflexivity. }
  destruct R as (b & R).
  refine (proj2 (C63_builds hash to_bytes from_uniform f_of_u64 hash' to_bytes' from_uniform' f_of_u64' x0 x1 x2 x3 yc onec hc x0' x1' x2' x3' yc' onec' hc' fsqrt prod_steps prod_sobj prod_code b R _ _) _).
  - intros p Sp. split; [apply prod_generic|].
    pose proof (proj2 (code_fits_ok x0 x1 x2 x3 yc onec hc PROD_LG (3 * HEADER_SIZE) (prod_code p) (prod_code_fits p Sp))) as X.
    destruct p as [id|i|j]; cbn [step_place] in Sp; [destruct Sp|exact X|]. destruct j as [|j]; [exact X|]. exfalso. clear X. cbn [prod_steps length] in Sp. lia.
  - intros i. exact (proj1 (code_fits_ok x0 x1 x2 x3 yc onec hc PROD_LG (3 * HEADER_SIZE) (prod_code (PStep i)) (prod_code_fits (PStep i) Logic.I))).
  - cbn [prod_steps length]. apply Nat.leb_le. reflexivity.
Qed.
End Ex.
(** its code means its step, and so C63_accepted and C63_made are about the headers with
    the square of an element, next to the trivial one *)
Lemma prod_rel dl dr d : holds (sb_run prod_body) (dl, dr, d) <-> dl = [] /\ dr = [] /\ exists x, d = [fmul x x].
Proof.
  unfold prod_body. cbn [sb_run]. split.
  - intros H. apply holds_bind in H. destruct H as (x & Hx & H). apply holds_bind in H. destruct H as (s & Hs & H).
    destruct Hx as (w & Ew). cbn [holds] in Ew. subst x. apply (e_square_w Fp w) in Hs. subst s. cbn [holds ew wir] in H. injection H as E1 E2 E3. subst dl dr d. split; [reflexivity|]. split; [reflexivity|]. exists w. reflexivity.
  - intros (-> & -> & x & ->). apply holds_bind. exists (wir x). split; [now eexists|]. apply holds_bind. exists (wir (fmul x x)). split; [now apply e_square_w|reflexivity].
Qed.
Example C63_means_ex : code_means HEADER_SIZE [step_of fp_of_u prod_body] prod_code /\
  (forall v, derived HEADER_SIZE [step_of fp_of_u prod_body] (AppSpec.padded HEADER_SIZE (lFp 8) [v]) <-> square v).
Proof.
  assert (CM : code_means HEADER_SIZE [step_of fp_of_u prod_body] prod_code).
  { apply (C63_means prod_code HEADER_SIZE [prod_body] (lFp 8) [lFp 12]); try (unfold HEADER_SIZE; cbn [length]; lia); try reflexivity.
    - intros b i [<-|[]] [E|E]; injection E as <-; reflexivity.
    - intros [|i] b res Eb; [|destruct i; discriminate]. injection Eb as <-. exact (fun H => H).
    - constructor; [|constructor]. intros dl dr d Ho s dt Hs. apply prod_rel in Ho. destruct Ho as (-> & -> & _). destruct Hs as [Hs|Hs]; injection Hs as -> ->; auto. }
  split; [exact CM|]. intros v. split.
  - intros D. remember (AppSpec.padded HEADER_SIZE (lFp 8) [v]) as h eqn:Eh. destruct D as [|i st dl dr d Es Rl _ _ _ _ _].
    + apply (f_equal (fun l => last l f0)) in Eh. rewrite !last_padded in Eh. apply (f_equal vFp) in Eh. vm_compute in Eh. discriminate.
    + destruct i as [|i]; [|destruct i; discriminate]. injection Es as <-. cbn [step_of ts_rel] in Rl. apply prod_rel in Rl. destruct Rl as (_ & _ & x & ->).
      apply (f_equal (fun l => nth 0 l f0)) in Eh. cbn in Eh. exists x. exact Eh.
  - intros (x & <-).
    assert (T1 : lFp 1 = f1) by exact lFp_one.
    apply (dv_step Fp HEADER_SIZE [step_of fp_of_u prod_body] 0 (step_of fp_of_u prod_body) [] [] [fmul x x]); try (unfold HEADER_SIZE; cbn [length]; lia); try reflexivity.
    + apply prod_rel. split; [reflexivity|]. split; [reflexivity|]. now exists x.
    + change (ts_left (step_of fp_of_u prod_body)) with (lFp 1). rewrite T1. constructor.
    + change (ts_right (step_of fp_of_u prod_body)) with (lFp 1). rewrite T1. constructor.
Qed.
(** the counts the crate's tests pin, and one step of the registry's size *)
Example C63_counts_ex : map (prod_count 13) [Hashes1Circuit; Hashes2Circuit; InnerCollapseCircuit; OuterCollapseCircuit; ComputeVCircuit] =
  [Some (2045, 3422); Some (1879, 2951); Some (1756, 1918); Some (811, 808); Some (1140, 1773)] /\
  Nat.log2_up (6000 + 15) = 13.
Proof. split; vm_compute; reflexivity. Qed.
Print Assumptions fp_sqrt_exists.
Print Assumptions C63_builds_ex.
Print Assumptions C63_means_ex.
Print Assumptions C63_counts_ex.
