(** C53: a concrete step over F2161, a field with more elements than the 4n challenges
    of the soundness theorem, with the five circuits compiled at n = 512. *)
From Coq Require Import List Arith NArith ZArith Bool Lia.
From Verif Require Import FieldDef GF ArithModel SparseModel GadgetModel GadgetSpec GadgetProofs Runs PointSpec EndoSpec EndoProofs TxzProofs TProofs
  SpongeModel SpongeSpec SpongeProofs FoldModel FoldSpec FoldProofs2 PcdModel PcdSpec PcdProofs2 TraceModel
  CircModel CircSpec SatProofs StageModel
  Props_Arith Props_Gadget Props_Sponge Props_Fold
  TModel TProofs FFTModel RegModel VerifyModel RecModel RecSpec RecProofs RecProofs2 RecProofs3 RecProofs4 RecProofs5 Props_Rec
  CompileModel CompileSpec CompileSpec2 Props_Comp RecStageModel RecStageSpec RecStageProofs Props_Step.
Import ListNotations.
Open Scope f_scope.
Local Open Scope nat_scope.

Lemma check_2161 : good 2161. Proof. apply check_good. vm_compute. reflexivity. Qed.
Definition F2161 : Field := GF 2161 check_2161.
Definition l2161 (z : Z) : F2161 := mk 2161 check_2161 z.
Definition v2161 (x : F2161) : Z := val 2161 x.
Definition big_params : pparams F2161 := mk_pparams F2161 3 2 2 1 5%Z
  (map (map l2161) [[1; 2; 3]; [4; 5; 6]; [7; 8; 9]]%Z) (map (map l2161) [[2; 1; 1]; [1; 2; 1]; [1; 1; 3]]%Z).
Lemma C34_big_wf : wf_params big_params.
Proof. unfold wf_params. cbn. repeat split; auto. Qed.
(** two points of y^2 = x^3 + 3, a cube root of unity *)
Definition big_b : F2161 := l2161 3.
Definition big_p : F2161 * F2161 := (l2161 1, l2161 2).
Definition big_q : F2161 * F2161 := (l2161 3, l2161 114).
Definition big_zeta : F2161 := l2161 593.

(** the roots of unity of order 16 *)
Lemma ta2161_pos : (1 <= 4)%nat. Proof. lia. Qed.
Lemma ta2161_order : (l2161 954 ^ (2 ^ (4 - 1)))%F = (- (1))%F. Proof. apply gf_ext. vm_compute. reflexivity. Qed.
Lemma ta2161_inv : (l2161 954 * l2161 1751)%F = 1%F. Proof. apply gf_ext. vm_compute. reflexivity. Qed.
Lemma ta2161_half : (two * l2161 1081)%F = 1%F. Proof. apply gf_ext. vm_compute. reflexivity. Qed.
Definition TA2161 : TwoAdic F2161 := mkTwoAdic F2161 4 (l2161 954) (l2161 1751) (l2161 1081) ta2161_pos ta2161_order ta2161_inv ta2161_half.

(** square roots in F2161: v^68 times one of eight roots of unity; 7 is a non-square *)
Definition all2161 : list F2161 := map (fun n => l2161 (Z.of_nat n)) (seq 0 2161).
Lemma all2161_in (a : F2161) : In a all2161.
Proof.
  unfold all2161. pose proof (val_range 2161 a) as R. apply in_map_iff. exists (Z.to_nat (v2161 a)). split.
  - apply gf_ext. unfold l2161. rewrite val_mk, Z2Nat.id by (unfold v2161; lia). apply Z.mod_small. exact R.
  - apply in_seq. unfold v2161. lia.
Qed.
Definition pow2 {F : Field} (n : nat) (v : F) : F := Nat.iter n (fun x => (x * x)%F) v.
Definition roots16 : list F2161 := map l2161 [1; 954; 335; 1923; 2014; 227; 458; 410]%Z.
Fixpoint find_root {F : Field} (cs : list F) (r v : F) : option F :=
  match cs with [] => None | c :: cs => if feqb (c * r * (c * r))%F v then Some (c * r)%F else find_root cs r v end.
Lemma find_root_some {F : Field} (cs : list F) (r v s : F) : find_root cs r v = Some s -> (s * s)%F = v.
Proof.
  induction cs as [|c cs IH]; [discriminate|]. simpl. destruct (feqb (c * r * (c * r))%F v) eqn:E; [|exact IH].
  intros H. injection H as <-. now apply feqb_true in E.
Qed.
Definition sqrt2161 (v : F2161) : option F2161 := find_root roots16 (pow2 6 v * pow2 2 v)%F v.
Lemma sqrt2161_some v s : sqrt2161 v = Some s -> (s * s)%F = v.
Proof. apply find_root_some. Qed.
Definition is_some {A} (o : option A) : bool := match o with Some _ => true | None => false end.
Lemma sqrt2161_none v : sqrt2161 v = None -> ~ square v.
Proof.
  intros H (s & E).
  assert (T : forallb (fun s => is_some (sqrt2161 (s * s)%F)) all2161 = true) by (vm_compute; reflexivity).
  rewrite forallb_forall in T. specialize (T s (all2161_in s)). rewrite E, H in T. discriminate.
Qed.
Definition gen2161 : F2161 := l2161 7.
Lemma gen2161_ok (v : F2161) : square v \/ square (gen2161 * v)%F.
Proof.
  assert (T : forallb (fun v => is_some (sqrt2161 v) || is_some (sqrt2161 (gen2161 * v)%F)) all2161 = true) by (vm_compute; reflexivity).
  rewrite forallb_forall in T. specialize (T v (all2161_in v)).
  destruct (sqrt2161 v) as [s|] eqn:E; [left; exists s; now apply sqrt2161_some|].
  destruct (sqrt2161 (gen2161 * v)%F) as [s|] eqn:E2; [right; exists s; now apply sqrt2161_some|discriminate].
Qed.

(** two children *)
Definition big_uni (a : Z) : uvals F2161 :=
  mk_uvals (fun p => match p with PPreamble | PAB | PQuery => big_p | _ => big_q end)
    (fun f => l2161 (match f with Uw => a + 3 | Uy => a + 5 | Uz => 7 * a | Umu => 8 | Unu => 9 | Umu' => a * a | Unu' => 2 | Uc => 60 - a | Ux => a + 17
                   | Ualpha => 41 | Uu => a + 50 | Upre_beta => 77 | Uv => 3 * a end)%Z).
Definition big_l : pvals F2161 := mk_pvals (map l2161 [4; 6]%Z) (map l2161 [9; 1]%Z) (map l2161 [12; 8]%Z) (l2161 954) (big_uni 11).
Definition big_r : pvals F2161 := mk_pvals (map l2161 [2; 1]%Z) (map l2161 [0; 3]%Z) (map l2161 [0; 1]%Z) (l2161 2014) (big_uni 20).
Definition big_tag : list N := [114; 97; 103; 117]%N.
Definition big_of_u (n : N) : F2161 := l2161 (Z.of_N n).
Definition big_tagv : list F2161 := tag_values F2161 big_of_u big_tag.
Definition big_pts (p : upt) : F2161 * F2161 := match p with PSPrime | PF | PInnerError => big_q | _ => big_p end.
(** the stages and the published instance of the step *)
Definition big_chal (f : uel) : F2161 := l2161 (match f with Uw => 78 | Uy => 800 | Uz => 1685 | Umu => 710 | Unu => 414 | Umu' => 195 | Unu' => 108 | Ux => 11
  | Ualpha => 839 | Uu => 732 | Upre_beta => 360 | _ => 0 end)%Z.
Definition big_ie : list (list F2161) := map (fun g => map (fun i => l2161 (Z.of_nat (g * 20 + 3 * i + 1))) (seq 0 20)) (seq 0 5).
Definition big_oe0 (cs : list F2161) : ovals F2161 := mk_ovals (map (fun i => l2161 (Z.of_nat (5 * i + 2))) (seq 0 20)) cs
  (child_k big_l (big_chal Uy)) (child_k big_r (big_chal Uy)) (map l2161 [710; 414; 1837]%Z).
Definition big_coll : list F2161 := map (fun i => weigh 5 (finv (big_chal Umu)) (big_chal Umu * big_chal Unu)%F
  (entry 5 (nth i big_ie []) (map (ky_of big_l big_r (big_oe0 [])) (seq (i * 5) 5)))) (seq 0 5).
Definition big_oe : ovals F2161 := big_oe0 big_coll.
Definition big_c : F2161 := weigh 5 (finv (big_chal Umu')) (big_chal Umu' * big_chal Unu')%F (entry 5 (ov_errs big_oe) big_coll).
Definition big_rxv (a : Z) (i : rxid) : F2161 := l2161 (a + match i with RxApplication => 1 | RxHashes1 => 5 | RxHashes2 => 2 | RxEval => 40 | _ => 9 end)%Z.
Definition big_qc (a : Z) : cquery F2161 := mk_cquery (big_rxv (3 * a)) (l2161 a) (l2161 (a + 4)) (l2161 (2 * a)) (l2161 (a * a)) (l2161 7).
Definition big_idv (i : icid) : F2161 := l2161 (2 + Z.of_nat (length (filter (fun j => icid_eqb i j) icid_all)))%Z.
Definition big_query : queryout F2161 := mk_queryout big_idv (l2161 44) (big_qc 5) (big_qc 6).
Definition big_ec (a : Z) : ceval F2161 := mk_ceval (big_rxv a) (l2161 (a + 1)) (l2161 (a + 2)) (l2161 (a + 3)) (l2161 (a + 4)).
Definition big_eval : evalout F2161 := mk_evalout (big_ec 10) (big_ec 40) (l2161 1) (l2161 2) (l2161 3) (l2161 4) (l2161 5) (l2161 6).
Definition big_omega : icid -> F2161 := internal_omega TA2161.
Definition big_bits : list bool := [true; true; true; true; false; false; false; false].
Definition big_beta : F2161 := lift_bits F2161 big_zeta big_bits ((big_zeta + 1) + (big_zeta + 1))%F.
Definition big_u0 : uvals F2161 := mk_uvals big_pts big_chal.
(** A(xz), B(x) for a given value of t(x, z); the sum itself is slow to compute *)
Definition axbx_t {F : Field} (t : F) (M N : nat) (q : queryout F) (u : uvals F) : F * F :=
  let cs := build_claims (eval_source q) in
  let mu := uv_el u Umu in let mu' := uv_el u Umu' in
  (two_layer M N (map (ev_a F (uv_el u Uz)) cs) (finv mu) (finv mu'),
   two_layer M N (map (ev_b F (qo_fixed q) t) cs) (mu * uv_el u Unu)%F (mu' * uv_el u Unu')%F).
Lemma axbx_t_ok {F : Field} (t : F) n M N q u : t_spec F n (uv_el u Ux) (uv_el u Uz) = t -> axbx n M N q u = axbx_t t M N q u.
Proof. intros <-. reflexivity. Qed.
Definition big_t : F2161 := match t_xz 9 (big_chal Ux) (big_chal Uz) with Some t => t | None => f0 end.
Definition big_tz : Z := Eval vm_compute in v2161 big_t.
Lemma big_t_ok : t_spec F2161 (2 ^ 9) (big_chal Ux) (big_chal Uz) = l2161 big_tz.
Proof.
  assert (X : big_t = l2161 big_tz) by (apply gf_ext; vm_compute; reflexivity).
  rewrite <- X. unfold big_t. rewrite t_xz_ok. reflexivity.
Qed.
Definition big_v : F2161 :=
  let ab := axbx_t (l2161 big_tz) 5 5 big_query big_u0 in
  let qs := poly_queries big_eval big_query (uv_el (pv_uni big_l) Uv) (uv_el (pv_uni big_r) Uv) (open_points big_omega big_l big_r big_u0) (fst ab) (snd ab) in
  let comps := fold_quotients (big_chal Ualpha) (big_chal Uu) qs :: eval_write big_eval in
  hfold (length comps) big_beta (fun i => nth i comps 0%F).
Definition big_u : uvals F2161 := mk_uvals big_pts (fun f => match f with Uc => big_c | Uv => big_v | _ => big_chal f end).

Lemma neq2161 (a b : F2161) : v2161 a <> v2161 b -> a <> b.
Proof. congruence. Qed.
Lemma map2161 : forall a b : list F2161, map v2161 a = map v2161 b -> a = b.
Proof. induction a as [|x a IH]; intros [|y b] H; try discriminate; auto. cbn in H. injection H as H1 H2. f_equal; auto. now apply gf_ext. Qed.
Example C46_big : transcript_1 big_params big_tagv big_u (ov_sponge big_oe) /\ transcript_2 big_params big_u (ov_sponge big_oe) /\ transcript big_params big_tagv big_u.
Proof.
  assert (A : transcript_1 big_params big_tagv big_u (ov_sponge big_oe)).
  { unfold transcript_1.
    assert (X : match d_run (pp_RATE big_params) (poseidon big_params) (ops_1 big_tagv big_u ++ [DSaveResume]) (d_new (pp_T big_params)) with
                | inr (o, d) => map v2161 o = map v2161 (chals_1 big_u) /\ map v2161 (d_vec d) = map v2161 (ov_sponge big_oe) | _ => False end)
      by (vm_compute; auto).
    destruct (d_run _ _ _ _) as [|[o d]]; [destruct X|]. destruct X as [X1 X2]. exists d. apply map2161 in X1, X2. now subst. }
  assert (B : transcript_2 big_params big_u (ov_sponge big_oe)).
  { unfold transcript_2.
    assert (X : match d_run (pp_RATE big_params) (poseidon big_params) (ops_2 big_u) (mk_duplex (ov_sponge big_oe) 0 true 0) with
                | inr (o, d) => map v2161 o = map v2161 (chals_2 big_u) | _ => False end)
      by (vm_compute; auto).
    destruct (d_run _ _ _ _) as [|[o d]]; [destruct X|]. exists d. apply map2161 in X. now subst. }
  split; [exact A|]. split; [exact B|]. apply (C46_transcript F2161 big_params big_tagv big_u C34_big_wf). eauto.
Qed.
Example C47_big : inner_collapse_rel 5 big_l big_r big_oe big_ie big_u /\ outer_collapse_rel 5 big_l big_r big_oe big_u /\ ~ is_base big_l big_r /\ v2161 big_c <> 0%Z.
Proof.
  split; [|split; [|split]].
  - split; [apply neq2161; vm_compute; discriminate|]. intros i Hi. change (length big_ie) with 5 in Hi.
    do 5 (destruct i as [|i]; [apply gf_ext; vm_compute; reflexivity|]). lia.
  - split; [apply neq2161; vm_compute; discriminate|]. right. apply gf_ext. vm_compute. reflexivity.
  - intros [H _]. apply (f_equal v2161) in H. vm_compute in H. discriminate.
  - vm_compute. discriminate.
Qed.
Example C38_big_circuit : compute_v_rel true big_b 9 5 5 8 gen2161 big_zeta big_omega big_l big_r big_query big_eval big_u.
Proof.
  unfold compute_v_rel.
  split; [intros []; apply gf_ext; vm_compute; reflexivity|]. split; [intros []; apply gf_ext; vm_compute; reflexivity|].
  repeat (split; [apply neq2161; vm_compute; discriminate|]).
  split.
  - intros H. apply (in_map v2161) in H. vm_compute in H. repeat (destruct H as [H|H]; [discriminate|]). destruct H.
  - exists big_beta. split.
    + exists big_bits. split; [reflexivity|]. split; [|reflexivity]. intros i Hi.
      assert (T : nth i big_bits false = match sqrt2161 (uv_el big_u Upre_beta + fnat i)%F with Some _ => true | None => false end).
      { do 8 (destruct i as [|i]; [vm_compute; reflexivity|]). lia. }
      rewrite T. destruct (sqrt2161 _) as [s|] eqn:E; split; intros H; auto; try discriminate.
      * exists s. now apply sqrt2161_some.
      * exfalso. now apply (sqrt2161_none _ E).
    + cbv zeta. rewrite (axbx_t_ok (l2161 big_tz) (2 ^ 9) 5 5 big_query big_u big_t_ok). apply gf_ext. vm_compute. reflexivity.
Qed.
Example C49_big : step_rel true big_params big_tagv 4 big_b 9 5 5 8 gen2161 big_zeta big_omega big_l big_r big_oe big_ie big_query big_eval big_u.
Proof.
  constructor.
  - intros []; apply gf_ext; vm_compute; reflexivity.
  - apply gf_ext. vm_compute. reflexivity.
  - apply gf_ext. vm_compute. reflexivity.
  - reflexivity.
  - reflexivity.
  - apply C46_big.
  - apply C47_big.
  - apply C47_big.
  - apply C38_big_circuit.
Qed.
Lemma big_step : step_rel false big_params big_tagv 4 big_b 9 5 5 8 gen2161 big_zeta big_omega big_l big_r big_oe big_ie big_query big_eval big_u.
Proof.
  pose proof C49_big as [A B C D E T I O V]. constructor; auto.
  destruct V as (V1 & V2 & V3 & V4 & V5 & V6 & V7 & beta & (bs & L & Hb & Eb) & V8).
  repeat (split; [assumption|]). exists beta. split; [|exact V8]. exists bs. split; [exact L|]. split; [|exact Eb].
  intros i Hi. unfold bit_ok. specialize (Hb i Hi). destruct (nth i bs false); [now apply Hb|].
  destruct (gen2161_ok (uv_el big_u Upre_beta + fnat i)%F) as [Q|Q]; [|exact Q]. apply Hb in Q. discriminate.
Qed.

(** the five circuits compile and fit *)
Definition fits_b {F : Field} (n : nat) (stages : list (nat * nat)) (c : staged F) : bool :=
  match sprog stages c with
  | Some (b, o) => Nat.leb (list_sum (map fst (sizes (orchestrate b o)))) n && Nat.ltb (list_sum (map snd (sizes (orchestrate b o)))) (4 * n)
  | None => false
  end.
Lemma fits_b_ok {F : Field} (n : nat) stages (c : staged F) : fits_b n stages c = true -> registered n stages c.
Proof.
  unfold fits_b, registered. destruct (sprog stages c) as [[b o]|]; [|discriminate]. intros H. apply andb_true_iff in H. destruct H as [H1 H2].
  apply Nat.leb_le in H1. apply Nat.ltb_lt in H2. exists b, o. split; [reflexivity|]. split; assumption.
Qed.
Definition big_h1 := s_hashes_1 F2161 big_b 2 5 big_params big_of_u big_tag 4.
Definition big_h2 := s_hashes_2 F2161 big_b 5 big_params.
Definition big_in := s_inner F2161 big_b 2 5 5 big_params.
Definition big_out := s_outer F2161 big_b 2 5 big_params.
Definition big_cv := s_compute_v F2161 big_b 2 5 5 9 8 gen2161 sqrt2161 big_zeta big_omega.
Lemma big_fits : registered 512 (hashes_stages F2161 2 5 big_params) big_h1 /\ registered 512 (hashes_stages F2161 2 5 big_params) big_h2 /\
  registered 512 (inner_stages F2161 2 5 5 big_params) big_in /\ registered 512 (hashes_stages F2161 2 5 big_params) big_out /\
  registered 512 (v_stages 2) big_cv.
Proof. split; [|split; [|split; [|split]]]; apply fits_b_ok; vm_compute; reflexivity. Qed.
Lemma all2161_nodup : NoDup all2161.
Proof.
  apply (NoDup_map_inv v2161). unfold all2161. rewrite map_map.
  rewrite (map_ext_in _ Z.of_nat).
  - apply FinFun.Injective_map_NoDup; [intros a b H; now apply Nat2Z.inj|apply seq_NoDup].
  - intros a Ha. apply in_seq in Ha. unfold v2161, l2161. rewrite val_mk. apply Z.mod_small. lia.
Qed.
(** so the hypotheses of C53_sound are met, with every element of the field a
    challenge, by the polynomials of this step *)
Example C53_ex : NoDup all2161 /\ 4 * 512 <= length all2161 /\ length (u_write big_u) = unified_wires /\
  exists rpre roe rie rq re, carried F2161 big_params 2 5 5 512 rpre roe rie rq re big_l big_r big_oe big_ie big_query big_eval /\
    step_accepted F2161 big_params big_b big_of_u big_tag 4 2 9 5 5 8 gen2161 sqrt2161 big_zeta big_omega 512
      (u_write big_u) (map l2161 [12; 8]%Z) (map l2161 [0; 1]%Z) all2161 rpre roe rie rq re.
Proof.
  assert (L : 4 * 512 <= length all2161) by (unfold all2161; rewrite map_length, seq_length; lia).
  split; [exact all2161_nodup|]. split; [exact L|]. split; [reflexivity|].
  destruct big_fits as (G1 & G2 & G3 & G4 & G5).
  destruct (C53_complete F2161 big_params big_b big_of_u big_tag 4 2 9 5 5 8 gen2161 sqrt2161 big_zeta big_omega C34_big_wf 512
    big_l big_r big_oe big_ie big_query big_eval big_u (l2161 1) (l2161 2) (l2161 3) (l2161 4) (l2161 5)) as (rpre & roe & rie & rq & re & C & _ & _ & _ & _ & _ & Pa);
    try assumption; try (repeat split; fail); try lia.
  - split; [reflexivity|]. repeat constructor.
  - exact sqrt2161_some.
  - exact sqrt2161_none.
  - exact gen2161_ok.
  - apply C46_big.
  - exact big_step.
  - exists rpre, roe, rie, rq, re. split; [exact C|].
    apply (passes_accepted F2161 big_params big_b big_of_u big_tag 4 2 9 5 5 8 gen2161 sqrt2161 big_zeta big_omega 512 _ _ _ all2161 all2161); auto. exact all2161_nodup.
Qed.
