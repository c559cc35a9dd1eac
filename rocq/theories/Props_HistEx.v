(** C62: an application with one step, a proof of that step, and a rerandomised copy of
    it.  The header of both is one the step computes. *)
From Coq Require Import List Arith NArith ZArith Bool Lia Ring Field.
From Verif Require Import FieldDef ModDef GF ArithModel FFTModel SparseModel SparseSpec FoldModel FoldSpec ClaimModel CircModel CircSpec TraceModel GadgetModel GadgetSpec GadgetProofs ParSpec ParProofs ParProofs2
  SpongeModel SpongeSpec StageModel EndoSpec EndoProofs EscModel EscSpec PcdModel PcdSpec RecModel RecSpec RecProofs5 RecStageModel RecStageSpec RegModel RegSpec AppModel AppSpec AppProofs CompileModel CompileSpec CompileSpec2
  Props_Arith Props_Reg Props_Stage Props_App Props_Comp Props_Rec Props_Step Props_StepEx
  VerifyModel VerifySpec VerifySpec2 VerifyProofs VerifyProofs4 VerifyProofs8 Props_Verify Props_VerifyEx AccSpec AccProofs Props_Acc Props_AccEx HistSpec Props_Hist.
Import ListNotations.
Open Scope f_scope.
Local Open Scope nat_scope.

(** ** the application: one step, from two trivial headers to the square of its witness *)
Definition hist_app : circuit F2161 := fun W one =>
  gbind (e_alloc F2161 W None) (fun x => gbind (e_square F2161 W x) (fun s =>
    adapter_write F2161 W one false 2 (Some (big_of_u 1)) (Some (big_of_u 1)) (Some (big_of_u 8)) (EncGadget []) (EncGadget []) (EncGadget [s]))).
Definition hist_body : sbody F2161 := mk_sbody trivial_suffix trivial_suffix (SufApplication 6)
  (gbind (e_alloc F2161 F2161 None) (fun x => gbind (e_square F2161 F2161 x) (fun s => GRet ([], [], [ew _ _ s])))).
Definition hist_code (p : place) : circuit F2161 :=
  match p with
  | PStep IRerandomize => re_circuit 2 (l2161 8) (f1 : F2161) [l2161 12]
  | PApp _ => hist_app
  | _ => fun W one => trivial_circuit F2161 W one false 2 (Some (f1 : F2161))
  end.
Lemma hist_generic p : generic (hist_code p).
Proof.
  destruct p as [|[]|]; try apply triv_generic; [apply re_generic|]. intros W1 W2 o1 o2 RW Ho.
  apply (gbind_p RW true (erel RW true)); [apply e_alloc_p; reflexivity|]. intros x1 x2 Hx.
  apply (gbind_p RW true (erel RW true)); [apply e_square_p; exact Hx|]. intros s1 s2 Hs.
  apply adapter_write_p; try exact Ho; try reflexivity; constructor; repeat constructor; apply Hs.
Qed.
Definition hist_obj : option (cobj F2161) := code_obj k1 k2 k3 k4 k1 k2 k3 9 hist_app.
Definition hist_steps : list (step F2161) :=
  [AppModel.mk_step (StApplication 0) (mk_header trivial_suffix 0) (mk_header trivial_suffix 0) (mk_header (SufApplication 6) 1) hist_obj].
Definition hist_sobj (i : istep) : option (cobj F2161) := code_obj k1 k2 k3 k4 k1 k2 k3 9 (hist_code (PStep i)).
Lemma hist_code_fits p : step_place 1 p -> code_fits 9 6 (hist_code p) = true.
Proof. destruct p as [|[]|]; cbn [step_place]; [tauto| | |]; intros; vm_compute; reflexivity. Qed.
Notation hist_built := (built F2161 F97 TA2161 TA97 9 big_repr ex_repr ex_hash (fun a => [big_repr a]) big_from big_of_u ex_hash (fun a => [ex_repr a]) ex_from (fun n => l97 (Z.of_N n))
  k1 k2 k3 k4 k1 k2 k3 big_b 2 5 5 big_params big_of_u big_tag 8 gen2161 sqrt2161 big_zeta hist_steps hist_sobj 1 (nil_nobj (l97 11) 9) hist_code).
Lemma hist_places p : step_place 1 p -> generic (hist_code p) /\ exists outs, couts (hist_code p) = Some outs /\ length outs = 3 * 2 /\
  place_obj hist_steps (big_iobj 4) hist_sobj p = prog_cobj k1 k2 k3 k4 k1 k2 k3 9 (cbody (hist_code p)) outs.
Proof.
  intros Sp. split; [apply hist_generic|].
  pose proof (proj2 (code_fits_ok k1 k2 k3 k4 k1 k2 k3 9 6 (hist_code p) (hist_code_fits p Sp))) as X.
  destruct p as [id|i|j]; cbn [step_place] in Sp; [tauto|exact X|]. assert (j = 0) as -> by lia. exact X.
Qed.
Example C62_builds_ex : exists native nested, hist_built native nested.
Proof.
  destruct (code_fits_ok k1 k2 k3 k4 k1 k2 k3 9 6 hist_app (hist_code_fits (PApp 0) (le_n 1))) as [No _].
  assert (R : exists b, register_steps F2161 F97 (ab_new F2161 F97) hist_steps = Some b).
  { unfold hist_steps, hist_obj. destruct (code_obj k1 k2 k3 k4 k1 k2 k3 9 hist_app) as [o|]; [|congruence]. eexists. reflexivity. }
  destruct R as (b & R).
  apply (proj2 (C54_builds F2161 F97 TA2161 TA97 9 big_repr ex_repr ex_hash (fun a => [big_repr a]) big_from big_of_u ex_hash (fun a => [ex_repr a]) ex_from (fun n => l97 (Z.of_N n))
    k1 k2 k3 k4 k1 k2 k3 big_b 2 5 5 big_params big_of_u big_tag 8 gen2161 sqrt2161 big_zeta hist_steps hist_sobj 1 (nil_nobj (l97 11) 9) hist_code b R
    ltac:(cbn; lia) hist_places (fun id o _ => nil_is (l97 11) 9 id o) eq_refl (fun w w' _ _ => big_key_inj w w') (fun w w' _ _ => ex_key_inj w w'))).
  split; [exact big_iobj_some|]. split; [intros i; exact (proj1 (code_fits_ok k1 k2 k3 k4 k1 k2 k3 9 6 (hist_code (PStep i)) (hist_code_fits (PStep i) Logic.I)))|].
  split; [|change (length hist_steps) with 1; cbn [Nat.add]; change (Nat.log2_up 16) with 4; change (Nat.log2_up 12) with 4; change (2 ^ 9) with 512; cbn [TA2161 TA97 ta_S]; lia].
  intros id _. destruct id; discriminate.
Qed.

(** its code means the step: the example for C62_means *)
Lemma hist_rel dl dr d : holds (sb_run hist_body) (dl, dr, d) <-> dl = [] /\ dr = [] /\ exists x, d = [(x * x)%F].
Proof.
  unfold hist_body. cbn [sb_run]. split.
  - intros H. apply holds_bind in H. destruct H as (x & Hx & H). apply holds_bind in H. destruct H as (s & Hs & H).
    destruct Hx as (w & Ew). cbn [holds] in Ew. subst x. apply (e_square_w F2161 w) in Hs. subst s. cbn [holds ew wir] in H. injection H as E1 E2 E3. subst dl dr d. split; [reflexivity|]. split; [reflexivity|]. exists w. reflexivity.
  - intros (-> & -> & x & ->). apply holds_bind. exists (wir x). split; [now eexists|]. apply holds_bind. exists (wir (x * x)%F). split; [now apply e_square_w|reflexivity].
Qed.
Example C62_means_ex : code_means 2 [step_of big_of_u hist_body] hist_code.
Proof.
  apply (C62_means F2161 2 big_of_u [hist_body] hist_code (l2161 8) [l2161 12]); try lia; try reflexivity.
  - cbn; lia.
  - intros b s v [<-|[]] [->| ->] E; injection E as <-; split; intros X; try reflexivity; exfalso; apply (f_equal v2161) in X; vm_compute in X; discriminate.
  - intros [|i] b res Eb; [injection Eb as <-; exact (fun H => H)|]. destruct i; discriminate.
  - constructor; [|constructor]. intros dl dr d Ho s dt Hs. apply hist_rel in Ho. destruct Ho as (-> & -> & _). destruct Hs as [Hs|Hs]; injection Hs as -> ->; auto.
Qed.

(** ** the recursion step between two trivial headers *)
Definition hist_l : pvals F2161 := mk_pvals (map l2161 [4; 6]%Z) (map l2161 [9; 1]%Z) (map l2161 [0; 1]%Z) (l2161 954) (big_uni 11).
Definition hist_oe0 (cs : list F2161) : ovals F2161 := mk_ovals (map (fun i => l2161 (Z.of_nat (5 * i + 2))) (seq 0 20)) cs
  (child_k hist_l (big_chal Uy)) (child_k big_r (big_chal Uy)) (map l2161 [710; 414; 1837]%Z).
Definition hist_coll : list F2161 := map (fun i => weigh 5 (finv (big_chal Umu)) (big_chal Umu * big_chal Unu)%F
  (entry 5 (nth i big_ie []) (map (ky_of hist_l big_r (hist_oe0 [])) (seq (i * 5) 5)))) (seq 0 5).
Definition hist_oe : ovals F2161 := hist_oe0 hist_coll.
Lemma hist_step : step_rel false big_params big_tagv 4 big_b 9 5 5 8 gen2161 big_zeta big_omega hist_l big_r hist_oe big_ie big_query big_eval big_u.
Proof.
  pose proof big_step as [A B C D E T I O V]. constructor; auto.
  - split; [apply neq2161; vm_compute; discriminate|]. intros i Hi. change (length big_ie) with 5 in Hi.
    do 5 (destruct i as [|i]; [apply gf_ext; vm_compute; reflexivity|]). lia.
  - split; [apply neq2161; vm_compute; discriminate|]. left. split; apply gf_ext; vm_compute; reflexivity.
Qed.

(** ** accepted proofs *)
Notation hist_verify native nested := (verify (H := FieldMod F2161) TA2161 TA97 9 big_repr ex_repr (@feqb F2161) big_gens big_b 2 1 native nested).
Definition hist_good (native : registry F2161) (nested : registry F97) (p : proof F2161 F97 (FieldMod F2161)) (lh rh : list F2161) (id : nat) (s : F2161) (d : list F2161) : Prop :=
  pf_left_header p = lh /\ pf_right_header p = rh /\ pf_circuit_id p = N.of_nat id /\ wf_proof (2 ^ 9) p /\ published p big_u /\
  forall w y z y' z', hist_verify native nested p (Some s) (Some d) w y z y' z' = Some true.
Lemma big_gens_len : 4 * 2 ^ 9 <= length big_gens.
Proof. unfold big_gens. rewrite repeat_length. apply Nat.leb_le. reflexivity. Qed.
Lemma hist_make native nested cl cr oe pl id s d res : hist_built native nested -> id < 2 ^ 4 -> length d < 2 ->
  step_place 1 pl -> place_index 1 pl = Some id -> holds (hist_code pl F2161 f1) res -> map (ew F2161 F2161) res = pv_out cl ++ pv_out cr ++ AppSpec.padded 2 s d ->
  headers_of 2 cl -> headers_of 2 cr -> oe_sized 5 (pp_T big_params) oe -> transcript_1 big_params big_tagv big_u (ov_sponge oe) ->
  step_rel false big_params big_tagv 4 big_b 9 5 5 8 gen2161 big_zeta big_omega cl cr oe big_ie big_query big_eval big_u ->
  exists p, hist_good native nested p (pv_out cl) (pv_out cr) id s d.
Proof.
  intros B Hid Ld Pl Pi Hr Er Hl Hr' Ho Tr SR.
  destruct (slots_ok _ _ _ _ _ _ _ _ _ _ _ _ _ _ _ _ _ _ _ _ _ _ _ _ _ _ _ _ _ _ _ _ _ _ _ _ _ _ _ _ B) as (_ & _ & Sx).
  destruct (Sx (uv_el big_u Ux) (uv_el big_u Uy)) as (q & Eq & Wq & _).
  destruct (simple_step F2161 F97 TA2161 TA97 8 _ _ _ _ _ _ _ _ _ _ _ _ _ _ _ _ _ _ _ _ _ _ _ _ _ _ _ _ _ _ _ _ _ _ B big_gens big_gens_len) as (st & Wst & Nst).
  set (p0 := simple_proof F2161 F97 8 big_gens (N.of_nat id) (pv_out cl) (pv_out cr) big_u q st).
  assert (Wp : wf_proof (2 ^ 9) p0) by exact (simple_wf F2161 F97 8 big_gens big_gens_len (N.of_nat id) (pv_out cl) (pv_out cr) big_u q st Wq Wst).
  assert (Ei : N.to_nat (pf_circuit_id p0) = id) by apply Nat2N.id.
  destruct (C54_complete _ _ _ _ _ _ _ _ _ _ _ _ _ _ _ _ _ _ _ _ _ _ _ _ _ _ _ _ _ _ _ _ _ _ _ _ _ _ _ _ B (le_n 1)
    (FieldMod F2161) (@feqb F2161) big_gens (fun a b => feqb_true F2161 a b) big_gens_len p0 s d big_u pl
    res cl cr oe big_ie big_query big_eval (l2161 1) (l2161 2) (l2161 3) (l2161 4) (l2161 5) (l2161 6))
    as (ra & rpre & rie & roe & rq & re & h1 & h2 & ic & oc & cv & _ & Wp' & V); try assumption; try lia.
  - exact C34_big_wf.
  - exact sqrt2161_some.
  - exact sqrt2161_none.
  - exact gen2161_ok.
  - rewrite Ei. exact Hid.
  - apply simple_published.
  - rewrite Ei. exact Pi.
  - split; [reflexivity|]. repeat constructor.
  - reflexivity.
  - reflexivity.
  - apply (simple_opens F2161 F97 8 native big_gens big_gens_len _ _ _ _ _ _ q Eq). reflexivity.
  - apply Nst.
  - match type of V with forall w y z y' z', VerifyModel.verify _ _ _ _ _ _ _ _ _ _ _ _ ?p _ _ _ _ _ _ _ = _ => exists p end.
    repeat (split; [reflexivity|]). split; [exact Wp'|]. split; [|exact V]. exact (simple_published F2161 F97 8 big_gens (N.of_nat id) (pv_out cl) (pv_out cr) big_u q st).
Qed.
Lemma hist_often native nested p lh rh id s d : hist_good native nested p lh rh id s d ->
  often F2161 F97 TA2161 TA97 9 big_repr ex_repr big_b 2 1 native nested (FieldMod F2161) (@feqb F2161) big_gens p (Some s) (Some d) all2161.
Proof.
  intros (_ & _ & _ & _ & _ & V).
  assert (L : 4 * 2 ^ 9 <= length all2161) by (unfold all2161; rewrite map_length, seq_length; apply Nat.leb_le; reflexivity).
  split; [exact all2161_nodup|]. split; [exact L|]. intros y _. exists all2161. split; [exact all2161_nodup|]. split; [exact L|].
  intros z _. exists f0, f0, f0. apply V.
Qed.
Lemma triv2161 : map l2161 [0; 1]%Z = AppSpec.padded 2 (f1 : F2161) [].
Proof. apply map2161. vm_compute. reflexivity. Qed.
Notation hist_backed native := (backed TA2161 9 4 2 5 5 big_b 8 gen2161 big_zeta (reg_rv TA2161 9 big_repr native)).
(** A proof of the step whose witness is 1057, a proof of the trivial step, and the first
    rerandomised with the second.  The ancestors of the last can be had. *)
Example C62_ex : exists native nested (p1 t p : proof F2161 F97 (FieldMod F2161)), hist_built native nested /\
  hist_good native nested p1 (map l2161 [0; 1]%Z) (map l2161 [0; 1]%Z) 15 (l2161 8) [l2161 12] /\
  hist_good native nested t (map l2161 [0; 1]%Z) (map l2161 [0; 1]%Z) 14 f1 [] /\
  hist_good native nested p (map l2161 [12; 8]%Z) (map l2161 [0; 1]%Z) 13 (l2161 8) [l2161 12] /\
  hist_backed native p (map l2161 [12; 8]%Z).
Proof.
  destruct C62_builds_ex as (native & nested & B). exists native, nested.
  assert (Ho : oe_sized 5 (pp_T big_params) hist_oe) by (repeat split).
  assert (Tr : transcript_1 big_params big_tagv big_u (ov_sponge hist_oe)) by apply C46_big.
  assert (Hl : headers_of 2 hist_l) by (repeat split). assert (Hr : headers_of 2 big_r) by (repeat split).
  assert (Mw : forall a : list F2161, map (ew F2161 F2161) (map wir a) = a) by (intros a; rewrite map_map; apply map_id).
  assert (H1 : holds (hist_code (PApp 0) F2161 f1) (map wir (map l2161 [0; 1]%Z ++ map l2161 [0; 1]%Z ++ map l2161 [12; 8]%Z))).
  { cbn [hist_code]. unfold hist_app. apply holds_bind. exists (wir (l2161 1057)). split; [now eexists|].
    apply holds_bind. exists (wir (l2161 1057 * l2161 1057)%F). split; [now apply e_square_w|].
    apply (proj1 (C44_adapter F2161 2 _ _ _ [] [] [(l2161 1057 * l2161 1057)%F])). split; [cbn; lia|]. reflexivity. }
  assert (Ht : holds (hist_code (PStep ITrivial) F2161 f1) (map wir (map l2161 [0; 1]%Z ++ map l2161 [0; 1]%Z ++ map l2161 [0; 1]%Z))).
  { cbn [hist_code]. apply (proj1 (C44_trivial F2161 (fun _ => f1) 2 ltac:(lia))). now rewrite triv2161. }
  assert (H2 : holds (hist_code (PStep IRerandomize) F2161 f1) (map wir (map l2161 [12; 8]%Z ++ map l2161 [0; 1]%Z ++ map l2161 [12; 8]%Z))).
  { cbn [hist_code]. apply (proj1 (proj2 (C44_rerandomize F2161 2 (l2161 8) f1 [l2161 12] (le_n 2)))). exists (map l2161 [12; 8]%Z). split; [reflexivity|]. now rewrite triv2161. }
  assert (Lt15 : 15 < 2 ^ 4 /\ 14 < 2 ^ 4 /\ 13 < 2 ^ 4) by (cbn; lia). destruct Lt15 as (I15 & I14 & I13).
  destruct (hist_make native nested hist_l big_r hist_oe (PApp 0) 15 (l2161 8) [l2161 12] _ B I15 (le_n 2) (le_n 1) eq_refl H1 (Mw _) Hl Hr Ho Tr hist_step) as (p1 & G1).
  assert (Et : map (ew F2161 F2161) (map wir (map l2161 [0; 1]%Z ++ map l2161 [0; 1]%Z ++ map l2161 [0; 1]%Z)) = pv_out hist_l ++ pv_out big_r ++ AppSpec.padded 2 f1 []).
  { rewrite Mw. change (pv_out hist_l) with (map l2161 [0; 1]%Z). change (pv_out big_r) with (map l2161 [0; 1]%Z). now rewrite triv2161. }
  destruct (hist_make native nested hist_l big_r hist_oe (PStep ITrivial) 14 f1 [] _ B I14 ltac:(cbn; lia) Logic.I eq_refl Ht Et Hl Hr Ho Tr hist_step) as (t & Gt).
  destruct (hist_make native nested big_l big_r big_oe (PStep IRerandomize) 13 (l2161 8) [l2161 12] _ B I13 (le_n 2) Logic.I eq_refl H2 (Mw _) ltac:(repeat split) Hr ltac:(repeat split) (proj1 C46_big) big_step) as (p & G).
  change (pv_out hist_l) with (map l2161 [0; 1]%Z) in *. change (pv_out big_r) with (map l2161 [0; 1]%Z) in *. change (pv_out big_l) with (map l2161 [12; 8]%Z) in *.
  exists p1, t, p. split; [exact B|]. split; [exact G1|]. split; [exact Gt|]. split; [exact G|].
  assert (Po : pts_on big_b big_u) by (intros f; eapply sr_points; exact big_step).
  destruct G1 as (L1 & R1 & I1 & W1 & P1 & V1). destruct Gt as (Lt & Rt & It & Wt & Pt & Vt). destruct G as (L & R & I & W & P & V).
  assert (C : forall id, id < 16 -> N.to_nat (N.of_nat id) < 2 ^ ta_S TA2161) by (intros id; rewrite Nat2N.id; auto).
  apply (bk_step F2161 F97 (FieldMod F2161) TA2161 9 4 2 5 5 big_b 8 gen2161 big_zeta _ p _ p1 big_u t big_u).
  - unfold child_ok. rewrite L1, R1, I1. repeat (split; [first [assumption|apply C; lia|reflexivity]|]). exact P1.
  - unfold child_ok. rewrite Lt, Rt, It. repeat (split; [first [assumption|apply C; lia|reflexivity]|]). exact Pt.
  - rewrite L, R, triv2161.
    apply (C61_accepted _ _ _ _ _ _ _ _ _ _ _ _ _ _ _ _ _ _ _ _ _ _ _ _ _ _ _ _ _ _ _ _ _ _ _ _ _ _ _ _ B (FieldMod F2161) (le_n 1)
      (@feqb F2161) big_gens (fun a b => feqb_true F2161 a b) big_gens_len p1 t big_u big_u (l2161 8) [l2161 12] f1 []); try lia.
    + intros p' u0 s0 d0 [E|E]; injection E as -> -> -> ->; [rewrite I1|rewrite It]; (repeat (split; [first [assumption|apply C; lia]|])); assumption.
    + exists all2161. split; [exact all2161_nodup|]. split; [|auto]. unfold all2161. rewrite map_length, seq_length. apply Nat.leb_le. reflexivity.
    + exact acc_betas.
  - apply bk_seed; [rewrite L1|rewrite R1]; apply gf_ext; vm_compute; reflexivity.
  - apply bk_seed; [rewrite Lt|rewrite Rt]; apply gf_ext; vm_compute; reflexivity.
Qed.
(** so the header of the rerandomised proof comes out of the step: its data is a square *)
Example C62_ex_derived : derived 2 [step_of big_of_u hist_body] (map l2161 [12; 8]%Z).
Proof.
  destruct C62_ex as (native & nested & p1 & t & p & B & _ & _ & G & Bk). pose proof (hist_often _ _ _ _ _ _ _ _ G) as Of. destruct G as (L & R & I & W & P & V).
  apply (C62_accepted _ _ _ _ _ _ _ _ _ _ _ _ _ _ _ _ _ _ _ _ _ _ _ _ _ _ _ _ _ _ _ _ _ _ _ _ _ _ _ _ B (FieldMod F2161) C34_big_wf
    ltac:(lia) ltac:(lia) ltac:(lia) ltac:(lia) sqrt2161_some sqrt2161_none gen2161_ok [step_of big_of_u hist_body] eq_refl C62_means_ex (le_n 1)
    (@feqb F2161) big_gens (fun a b => feqb_true F2161 a b) big_gens_len p (l2161 8) [l2161 12] all2161); auto.
  - rewrite I, Nat2N.id. change (13 < 2 ^ 4). cbn; lia.
  - intros E. apply (f_equal v2161) in E. vm_compute in E. discriminate.
  - intros E. apply (f_equal v2161) in E. vm_compute in E. discriminate.
Qed.
Example C62_ex_square : exists x : F2161, (x * x)%F = l2161 12.
Proof.
  pose proof C62_ex_derived as D. remember (map l2161 [12; 8]%Z) as h eqn:E. destruct D as [|i st dl dr d Es Rl L1 L2 L3 D1 D2].
  - apply (f_equal (map v2161)) in E. vm_compute in E. discriminate.
  - destruct i as [|[|i]]; try discriminate. injection Es as <-. cbn [step_of ts_rel] in Rl. apply hist_rel in Rl. destruct Rl as (_ & _ & x & ->). exists x.
    change ([(x * x)%F; big_of_u 8] = [l2161 12; l2161 8]) in E. now injection E.
Qed.
Print Assumptions C62_means_ex.
Print Assumptions C62_ex.
Print Assumptions C62_ex_derived.
