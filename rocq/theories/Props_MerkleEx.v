(** C64: instances. *)
From Coq Require Import List Arith NArith ZArith Bool Lia Ring Field.
From Verif Require Import FieldDef ModDef GF PrimeCert Pasta ArithModel FFTModel SparseModel CircModel GadgetModel GadgetSpec SpongeModel SpongeSpec StageModel RegModel PointSpec EndoSpec RecModel RecSpec CompileModel AppModel AppSpec PastaModel Props_Pasta Props_Sponge Props_Rec Props_Step Props_StepEx
  VerifyModel VerifySpec VerifySpec2 FuseModel FuseSpec HistSpec Props_Hist ProdModel ProdProofs Props_Prod Props_ProdEx MerkleModel MerkleSpec Props_Merkle.
Import ListNotations.
Local Open Scope nat_scope.

(** over a small field, with numbers: the leaves of 5 and 9 and the node over them are
    headers, and a header with another suffix is not one *)
Definition m_steps : list (tstep F2161) := [step_of big_of_u (leaf_body F2161 big_params); step_of big_of_u (hash2_body F2161 big_params)].
Lemma u2161 (i j : N) : v2161 (big_of_u i) <> v2161 (big_of_u j) -> big_of_u i <> big_of_u j.
Proof. intros N E. apply N. now rewrite E. Qed.
Lemma m_headers h : derived 4 m_steps h <-> tree_header big_params big_of_u 4 h.
Proof.
  apply (C64_headers F2161 big_params big_of_u 4 C34_big_wf).
  - apply Nat.leb_le. reflexivity.
  - lia.
  - apply gf_ext. vm_compute. reflexivity.
  - intros E. apply (f_equal v2161) in E. vm_compute in E. discriminate.
  - intros E. apply (f_equal v2161) in E. vm_compute in E. discriminate.
  - apply u2161. vm_compute. discriminate.
Qed.
Example C64_ex :
  derived 4 m_steps (map l2161 [754; 0; 0; 2]%Z) /\ derived 4 m_steps (map l2161 [820; 0; 0; 2]%Z) /\ derived 4 m_steps (map l2161 [831; 0; 0; 3]%Z) /\
  ~ derived 4 m_steps (map l2161 [831; 0; 0; 4]%Z) /\
  forall s0, simulate (hash2_witness F2161 big_params F2161 f1 true (Some (l2161 754)) (Some (l2161 820))) s0 =
    Some (([hon (l2161 754)], [hon (l2161 820)], [hon (l2161 831)]), bump s0 2 21 42).
Proof.
  assert (E5 : phash big_params [l2161 5] = l2161 754) by (apply gf_ext; vm_compute; reflexivity).
  assert (E9 : phash big_params [l2161 9] = l2161 820) by (apply gf_ext; vm_compute; reflexivity).
  assert (EN : phash big_params [l2161 754; l2161 820] = l2161 831) by (apply gf_ext; vm_compute; reflexivity).
  assert (P3 : forall a k, AppSpec.padded 4 (big_of_u k) [l2161 a] = map l2161 [a; 0; 0; Z.of_N k]%Z).
  { intros a k. unfold AppSpec.padded. cbn [length Nat.sub repeat app map]. f_equal. }
  split; [|split; [|split; [|split]]].
  - apply m_headers. change 2%Z with (Z.of_N 2). rewrite <- P3, <- E5. exact (th_leaf F2161 big_params big_of_u 4 (l2161 5)).
  - apply m_headers. change 2%Z with (Z.of_N 2). rewrite <- P3, <- E9. exact (th_leaf F2161 big_params big_of_u 4 (l2161 9)).
  - apply m_headers. change 3%Z with (Z.of_N 3). rewrite <- P3, <- EN, <- E5, <- E9. exact (th_node F2161 big_params big_of_u 4 (l2161 5) (l2161 9)).
  - intros D. apply m_headers in D. remember (map l2161 [831; 0; 0; 4]%Z) as h eqn:Eh.
    destruct D; apply (f_equal (fun l => v2161 (last l f0))) in Eh; rewrite last_padded in Eh; vm_compute in Eh; discriminate.
  - intros s0. rewrite (proj2 (proj2 (proj2 (C64_steps F2161 big_params C34_big_wf (proj1 (Nat.leb_le 2 (pp_RATE big_params)) eq_refl))))). now rewrite EN.
Qed.
(** over Pasta, the setting of C64_accepted, C64_made and C64_run can be had: a square root
    function, the registries, generators and curves *)
Example C64_setting : exists (fsqrt : Fp -> option Fp) native nested (gens : list (FieldMod Fp)) (gens' : list (FieldMod Fq)) (aff' : FieldMod Fq -> option (Fp * Fp)),
  (forall v s, fsqrt v = Some s -> fmul s s = v) /\ (forall v, fsqrt v = None -> ~ square v) /\
  prod_built (fun _ => []) (fun _ => []) (fun _ => f1) (fun _ => f1) (fun _ => []) (fun _ => []) (fun _ => f1) (fun _ => f1) f1 f1 f1 f1 f1 f1 f1 f1 f1 f1 f1 f1 f1 f1 fsqrt
    (tree_apps f1 f1 f1 f1 f1 f1 f1) (fun i => tree_obj f1 f1 f1 f1 f1 f1 f1 (PStep i)) (tree_code Fp PoseidonFp fp_of_u TREE_HS) TREE_HS native nested /\
  4 * 2 ^ PROD_LG <= length gens /\ 4 * 2 ^ PROD_LG <= length gens' /\ (forall c xy, aff' c = Some xy -> on_curve CURVE_B xy) /\ (exists c, aff' c <> None).
Proof.
  destruct fp_sqrt_exists as (fsqrt & SS & SN). exists fsqrt.
  destruct (C64_builds (fun _ => []) (fun _ => []) (fun _ => f1) (fun _ => f1) (fun _ => []) (fun _ => []) (fun _ => f1) (fun _ => f1) f1 f1 f1 f1 f1 f1 f1 f1 f1 f1 f1 f1 f1 f1 fsqrt) as (native & nested & B).
  exists native, nested, (repeat f1 (4 * 2 ^ PROD_LG)), (repeat f1 (4 * 2 ^ PROD_LG)), (fun _ => Some (lFp (-1), lFp 2)).
  split; [exact SS|]. split; [exact SN|]. split; [exact B|]. rewrite !repeat_length. split; [apply le_n|]. split; [apply le_n|]. split.
  - intros c xy E. apply (f_equal (fun o => match o with Some p => p | None => xy end)) in E. rewrite <- E. unfold on_curve. cbn [fst snd]. apply gf_ext. vm_compute. reflexivity.
  - exists f0. discriminate.
Qed.
Print Assumptions C64_ex.
Print Assumptions C64_setting.
