(** A concrete step over F97 meeting the hypotheses of the recursion theorems. *)
From Coq Require Import List Arith NArith ZArith Bool Lia.
From Verif Require Import FieldDef GF ArithModel GadgetModel GadgetSpec GadgetProofs Runs PointSpec EndoSpec EndoProofs TxzProofs TProofs
  SpongeModel SpongeSpec SpongeProofs FoldModel FoldSpec FoldProofs2 PcdModel PcdSpec PcdProofs2 TraceModel
  Props_Arith PointExample Props_Gadget Props_Sponge Props_Fold
  RecModel RecSpec RecProofs RecProofs2 RecProofs3 RecProofs4 RecProofs5 Props_Rec.
Import ListNotations.
Open Scope f_scope.
Local Open Scope nat_scope.

(** square roots in F97 by search; 5 is a non-square *)
Definition all97 : list F97 := map (fun n => l97 (Z.of_nat n)) (seq 0 97).
Lemma all97_in (a : F97) : In a all97.
Proof.
  unfold all97. pose proof (val_range 97 a) as R. apply in_map_iff. exists (Z.to_nat (v97 a)). split.
  - apply gf_ext. unfold l97. rewrite val_mk, Z2Nat.id by (unfold v97; lia). apply Z.mod_small. exact R.
  - apply in_seq. unfold v97. lia.
Qed.
Definition sqrt97 (v : F97) : option F97 := find (fun s => feqb (fmul s s) v) all97.
Lemma sqrt97_some v s : sqrt97 v = Some s -> (s * s)%F = v.
Proof. intros H. apply find_some in H. apply (proj1 (feqb_true F97 _ _)), (proj2 H). Qed.
Lemma sqrt97_none v : sqrt97 v = None -> ~ square v.
Proof. intros H (s & E). pose proof (find_none _ _ H s (all97_in s)) as K. cbn beta in K. rewrite E, feqb_refl in K. discriminate. Qed.
Definition gen97 : F97 := l97 5.
Lemma gen97_ok (v : F97) : square v \/ square (gen97 * v)%F.
Proof.
  assert (T : forallb (fun v => match sqrt97 v, sqrt97 (gen97 * v)%F with None, None => false | _, _ => true end) all97 = true) by (vm_compute; reflexivity).
  rewrite forallb_forall in T. specialize (T v (all97_in v)).
  destruct (sqrt97 v) as [s|] eqn:E; [left; exists s; now apply sqrt97_some|].
  destruct (sqrt97 (gen97 * v)%F) as [s|] eqn:E2; [right; exists s; now apply sqrt97_some|discriminate].
Qed.

(** two children *)
Definition ex_uni (a : Z) : uvals F97 :=
  mk_uvals (fun p => match p with PPreamble | PAB | PQuery => ex_p | _ => ex_q end)
    (fun f => l97 (match f with Uw => a + 3 | Uy => a + 5 | Uz => 7 * a | Umu => 8 | Unu => 9 | Umu' => a * a | Unu' => 2 | Uc => 60 - a | Ux => a + 17
                   | Ualpha => 41 | Uu => a + 50 | Upre_beta => 77 | Uv => 3 * a end)%Z).
Definition ex_l : pvals F97 := mk_pvals (map l97 [4; 6]%Z) (map l97 [9; 1]%Z) (map l97 [12; 8]%Z) (l97 22) (ex_uni 11).
Definition ex_r : pvals F97 := mk_pvals (map l97 [2; 1]%Z) (map l97 [0; 3]%Z) (map l97 [33; 1]%Z) (l97 75) (ex_uni 20).
Definition ex_tag : list N := [114; 97; 103; 117]%N.
Definition ex_of_u (n : N) : F97 := l97 (Z.of_N n).
Definition ex_tagv : list F97 := tag_values F97 ex_of_u ex_tag.
Definition ex_pts (p : upt) : F97 * F97 := match p with PSPrime | PF | PInnerError => ex_q | _ => ex_p end.
(** the stages and the published instance of the step *)
Definition ex_chal (f : uel) : F97 := l97 (match f with Uw => 13 | Uy => 51 | Uz => 63 | Umu => 63 | Unu => 3 | Umu' => 53 | Unu' => 10 | Ux => 43
  | Ualpha => 78 | Uu => 59 | Upre_beta => 95 | _ => 0 end)%Z.
Definition ex_ie : list (list F97) := map (fun g => map (fun i => l97 (Z.of_nat (g * 20 + 3 * i + 1))) (seq 0 20)) (seq 0 5).
Definition ex_oe0 (cs : list F97) : ovals F97 := mk_ovals (map (fun i => l97 (Z.of_nat (5 * i + 2))) (seq 0 20)) cs
  (child_k ex_l (ex_chal Uy)) (child_k ex_r (ex_chal Uy)) (map l97 [63; 3; 4]%Z).
Definition ex_coll : list F97 := map (fun i => weigh 5 (finv (ex_chal Umu)) (ex_chal Umu * ex_chal Unu)%F
  (entry 5 (nth i ex_ie []) (map (ky_of ex_l ex_r (ex_oe0 [])) (seq (i * 5) 5)))) (seq 0 5).
Definition ex_oe : ovals F97 := ex_oe0 ex_coll.
Definition ex_c : F97 := weigh 5 (finv (ex_chal Umu')) (ex_chal Umu' * ex_chal Unu')%F (entry 5 (ov_errs ex_oe) ex_coll).
Definition ex_rxv (a : Z) (i : rxid) : F97 := l97 (a + match i with RxApplication => 1 | RxHashes1 => 5 | RxHashes2 => 2 | RxEval => 40 | _ => 9 end)%Z.
Definition ex_qc (a : Z) : cquery F97 := mk_cquery (ex_rxv (3 * a)) (l97 a) (l97 (a + 4)) (l97 (2 * a)) (l97 (a * a)) (l97 7).
Definition ex_idv (i : icid) : F97 := l97 (2 + Z.of_nat (length (filter (fun j => icid_eqb i j) icid_all)))%Z.
Definition ex_query : queryout F97 := mk_queryout ex_idv (l97 44) (ex_qc 5) (ex_qc 6).
Definition ex_ec (a : Z) : ceval F97 := mk_ceval (ex_rxv a) (l97 (a + 1)) (l97 (a + 2)) (l97 (a + 3)) (l97 (a + 4)).
Definition ex_eval : evalout F97 := mk_evalout (ex_ec 10) (ex_ec 40) (l97 1) (l97 2) (l97 3) (l97 4) (l97 5) (l97 6).
Definition ex_omega (i : icid) : F97 := match i with Hashes1Circuit => l97 1 | Hashes2Circuit => l97 96 | _ => l97 22 end.
Definition ex_bits : list bool := [true; true; true; true; true; true; true; false].
Definition ex_beta : F97 := lift_bits F97 ex_zeta ex_bits ((ex_zeta + 1) + (ex_zeta + 1))%F.
Definition ex_u0 : uvals F97 := mk_uvals ex_pts ex_chal.
Definition ex_v : F97 :=
  let ab := axbx 4 5 5 ex_query ex_u0 in
  let qs := poly_queries ex_eval ex_query (uv_el (pv_uni ex_l) Uv) (uv_el (pv_uni ex_r) Uv) (open_points ex_omega ex_l ex_r ex_u0) (fst ab) (snd ab) in
  let comps := fold_quotients (ex_chal Ualpha) (ex_chal Uu) qs :: eval_write ex_eval in
  hfold (length comps) ex_beta (fun i => nth i comps 0%F).
Definition ex_u : uvals F97 := mk_uvals ex_pts (fun f => match f with Uc => ex_c | Uv => ex_v | _ => ex_chal f end).

Lemma neq97 (a b : F97) : v97 a <> v97 b -> a <> b.
Proof. congruence. Qed.
Lemma map97 : forall a b : list F97, map v97 a = map v97 b -> a = b.
Proof. induction a as [|x a IH]; intros [|y b] H; try discriminate; auto. cbn in H. injection H as H1 H2. f_equal; auto. now apply gf_ext. Qed.
Example C46_ex : transcript_1 ex_params ex_tagv ex_u (ov_sponge ex_oe) /\ transcript_2 ex_params ex_u (ov_sponge ex_oe) /\ transcript ex_params ex_tagv ex_u.
Proof.
  assert (A : transcript_1 ex_params ex_tagv ex_u (ov_sponge ex_oe)).
  { unfold transcript_1.
    assert (X : match d_run (pp_RATE ex_params) (poseidon ex_params) (ops_1 ex_tagv ex_u ++ [DSaveResume]) (d_new (pp_T ex_params)) with
                | inr (o, d) => map v97 o = map v97 (chals_1 ex_u) /\ map v97 (d_vec d) = map v97 (ov_sponge ex_oe) | _ => False end)
      by (vm_compute; auto).
    destruct (d_run _ _ _ _) as [|[o d]]; [destruct X|]. destruct X as [X1 X2]. exists d. apply map97 in X1, X2. now subst. }
  assert (B : transcript_2 ex_params ex_u (ov_sponge ex_oe)).
  { unfold transcript_2.
    assert (X : match d_run (pp_RATE ex_params) (poseidon ex_params) (ops_2 ex_u) (mk_duplex (ov_sponge ex_oe) 0 true 0) with
                | inr (o, d) => map v97 o = map v97 (chals_2 ex_u) | _ => False end)
      by (vm_compute; auto).
    destruct (d_run _ _ _ _) as [|[o d]]; [destruct X|]. exists d. apply map97 in X. now subst. }
  split; [exact A|]. split; [exact B|]. apply (C46_transcript F97 ex_params ex_tagv ex_u C34_ex_wf). eauto.
Qed.
Example C47_ex : inner_collapse_rel 5 ex_l ex_r ex_oe ex_ie ex_u /\ outer_collapse_rel 5 ex_l ex_r ex_oe ex_u /\ ~ is_base ex_l ex_r /\ v97 ex_c <> 0%Z.
Proof.
  split; [|split; [|split]].
  - split; [apply neq97; vm_compute; discriminate|]. intros i Hi. change (length ex_ie) with 5 in Hi.
    do 5 (destruct i as [|i]; [apply gf_ext; vm_compute; reflexivity|]). lia.
  - split; [apply neq97; vm_compute; discriminate|]. right. apply gf_ext. vm_compute. reflexivity.
  - intros [H _]. apply (f_equal v97) in H. vm_compute in H. discriminate.
  - vm_compute. discriminate.
Qed.
Example C38_ex_circuit : compute_v_rel true PointExample.ex_b 2 5 5 8 gen97 ex_zeta ex_omega ex_l ex_r ex_query ex_eval ex_u.
Proof.
  unfold compute_v_rel.
  split; [intros []; apply gf_ext; vm_compute; reflexivity|]. split; [intros []; apply gf_ext; vm_compute; reflexivity|].
  repeat (split; [apply neq97; vm_compute; discriminate|]).
  split.
  - intros H. apply (in_map v97) in H. vm_compute in H. repeat (destruct H as [H|H]; [discriminate|]). destruct H.
  - exists ex_beta. split.
    + exists ex_bits. split; [reflexivity|]. split; [|reflexivity]. intros i Hi.
      assert (T : nth i ex_bits false = match sqrt97 (uv_el ex_u Upre_beta + fnat i)%F with Some _ => true | None => false end).
      { do 8 (destruct i as [|i]; [vm_compute; reflexivity|]). lia. }
      rewrite T. destruct (sqrt97 _) as [s|] eqn:E; split; intros H; auto; try discriminate.
      * exists s. now apply sqrt97_some.
      * exfalso. now apply (sqrt97_none _ E).
    + apply gf_ext. vm_compute. reflexivity.
Qed.
Example C49_ex : step_rel true ex_params ex_tagv 2 PointExample.ex_b 2 5 5 8 gen97 ex_zeta ex_omega ex_l ex_r ex_oe ex_ie ex_query ex_eval ex_u.
Proof.
  constructor.
  - intros []; apply gf_ext; vm_compute; reflexivity.
  - apply gf_ext. vm_compute. reflexivity.
  - apply gf_ext. vm_compute. reflexivity.
  - reflexivity.
  - reflexivity.
  - apply C46_ex.
  - apply C47_ex.
  - apply C47_ex.
  - apply C38_ex_circuit.
Qed.
(** so the honest run of C45_complete applies, and the five circuits accept (the
    relation of C49_step with any accepted bits) *)
Example C45_ex : exists c1 c5 : coverage,
  (forall st, exists st', simulate (hashes_1 F97 F97 1%F true PointExample.ex_b ex_params ex_of_u ex_tag 2 (pre_of true ex_l ex_r) (oe_of true ex_oe) (inst_of true ex_u cov_default)) st
     = Some ((map hon (u_write ex_u ++ pv_out ex_l ++ pv_out ex_r ++ [0%F]), Some c1), st')) /\
  assert_complete c1 = false /\ assert_complete c5 = true.
Proof.
  destruct (C45_complete F97 ex_params PointExample.ex_b ex_of_u ex_tag 2 2 5 5 8 gen97 sqrt97 ex_zeta ex_omega C34_ex_wf ex_l ex_r ex_oe ex_ie ex_query ex_eval ex_u)
    as (c1 & c2 & c3 & c4 & c5 & H1 & _ & _ & _ & _ & E1 & _ & _ & _ & E5).
  - reflexivity.
  - repeat constructor.
  - cbn. lia.
  - discriminate.
  - discriminate.
  - reflexivity.
  - reflexivity.
  - lia.
  - exact sqrt97_some.
  - exact sqrt97_none.
  - exact gen97_ok.
  - apply C46_ex.
  - exact C49_ex.
  - exists c1, c5. auto.
Qed.
Example C49_ex_accepts : accepts F97 ex_params PointExample.ex_b ex_of_u ex_tag 2 2 5 5 8 gen97 sqrt97 ex_zeta ex_omega ex_l ex_r ex_oe ex_ie ex_query ex_eval (u_write ex_u).
Proof.
  apply C49_step.
  - exact C34_ex_wf.
  - reflexivity.
  - repeat constructor.
  - cbn. lia.
  - discriminate.
  - discriminate.
  - reflexivity.
  - reflexivity.
  - lia.
  - exact sqrt97_some.
  - exact sqrt97_none.
  - exact gen97_ok.
  - exists ex_u. split; [reflexivity|]. split; [apply C46_ex|].
    pose proof C49_ex as [A B C D E T I O V]. constructor; auto.
    destruct V as (V1 & V2 & V3 & V4 & V5 & V6 & V7 & beta & (bs & L & Hb & Eb) & V8).
    repeat (split; [assumption|]). exists beta. split; [|exact V8]. exists bs. split; [exact L|]. split; [|exact Eb].
    intros i Hi. unfold bit_ok. specialize (Hb i Hi). destruct (nth i bs false); [now apply Hb|].
    destruct (gen97_ok (uv_el ex_u Upre_beta + fnat i)%F) as [Q|Q]; [|exact Q]. apply Hb in Q. discriminate.
Qed.
Example C48_ex : map v97 [ck_application (child_k ex_l (l97 51)); ck_unified (child_k ex_l (l97 51)); ck_bridge (child_k ex_l (l97 51))]
  = map v97 [ky_eval (map l97 [4; 6; 9; 1; 12; 8]%Z) (l97 51); ky_eval (u_write (ex_uni 11) ++ [l97 0]) (l97 51);
             ky_eval (u_write (ex_uni 11) ++ map l97 [4; 6; 9; 1; 0]%Z) (l97 51)].
Proof. vm_compute. reflexivity. Qed.
