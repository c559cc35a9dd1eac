(** C65: the circuits of the crates' tests, from their code to accepted polynomials. *)
From Coq Require Import List Arith NArith ZArith Bool Lia Ring Field.
From Verif Require Import FieldDef GF ArithModel FFTModel ArithSpec SparseModel SparseSpec SparseProofs SparseProofs2 GadgetModel GadgetSpec GadgetProofs RegModel
  CircModel CircSpec TraceModel SatProofs CompileModel CompileSpec CompileSpec2 CompileProofs CompileProofs2 CompileProofs3
  Props_Arith ParSpec ParProofs ParProofs2 Props_Par Props_Comp FixtureModel.
Import ListNotations.
Local Open Scope nat_scope.

Section Facts.
  Variable F : Field.
  Add Field FFu27 : (f_theory F).
  Open Scope f_scope.
  Lemma simple_generic : generic (simple_circuit F).
  Proof. intros W1 W2 o1 o2 RW Ho. unfold simple_circuit, simple_witness.
    eapply gbind_p; [apply e_alloc_p; reflexivity|]. intros a1 a2 Ha. eapply gbind_p; [apply e_alloc_p; reflexivity|]. intros b1 b2 Hb. gp.
  Qed.
  Lemma square_loop_p {W1 W2 : Type} (RW : W1 -> W2 -> Prop) t : forall x1 x2, erel RW true x1 x2 ->
    grel RW true (erel RW true) (square_loop F W1 t x1) (square_loop F W2 t x2).
  Proof. induction t as [|t IH]; intros x1 x2 H; cbn [square_loop]; [apply gr_ret; exact H|]. eapply gbind_p; [apply e_square_p; exact H|]. intros y1 y2 Hy. now apply IH. Qed.
  Lemma square_generic times : generic (square_circuit F times).
  Proof.
    intros W1 W2 o1 o2 RW Ho. unfold square_circuit, square_witness.
    eapply gbind_p; [apply e_alloc_p; reflexivity|]. intros x1 x2 Hx.
    eapply gbind_p; [apply square_loop_p; exact Hx|]. intros y1 y2 Hy. apply gr_ret. constructor; [exact Hy|constructor].
  Qed.
  Lemma square_loop_w t : forall (a : F) r, holds (square_loop F F t (wir a)) r <-> r = wir (a ^ (2 ^ t)%nat).
  Proof. intros a r. rewrite <- (e_squarings_w F t a r). change (square_loop F F t) with (e_squarings F F t). reflexivity. Qed.
  Lemma square_loop_s t (a : F) st : simulate (square_loop F F t (hon a)) st = Some (hon (a ^ (2 ^ t)%nat), bump st 0 t (2 * t)).
  Proof. rewrite <- (e_squarings_s F t a st). reflexivity. Qed.
  (** what the code admits *)
  Lemma simple_holds r : holds (simple_circuit F F f1) r <-> exists a b, a ^ 5 = b ^ 2 /\ r = [wir (a + b); wir (a - b)].
  Proof.
    unfold simple_circuit, simple_witness. split.
    - intros H. apply holds_bind in H. destruct H as (ea & Ha & H). apply alloc_w in Ha. destruct Ha as (a & ->).
      apply holds_bind in H. destruct H as (eb & Hb & H). apply alloc_w in Hb. destruct Hb as (b & ->).
      apply holds_bind in H. destruct H as (x & Hx & H). apply e_square_w in Hx. subst x.
      apply holds_bind in H. destruct H as (x & Hx & H). apply e_square_w in Hx. subst x.
      apply holds_bind in H. destruct H as (x & Hx & H). apply e_mul_w in Hx. subst x.
      apply holds_bind in H. destruct H as (x & Hx & H). apply e_square_w in Hx. subst x.
      apply holds_bind in H. destruct H as (x & Hx & H). cbn in Hx. destruct Hx as [Hx _].
      apply holds_bind in H. destruct H as (y & Hy & H). apply e_add_w in Hy. subst y.
      apply holds_bind in H. destruct H as (y & Hy & H). apply e_sub_w in Hy. subst y.
      cbn [holds] in H. exists a, b. split; [|now symmetry].
      assert (E : a ^ 5 - b ^ 2 = 0) by (rewrite <- Hx; cbn; ring). transitivity (a ^ 5 - b ^ 2 + b ^ 2); [ring|]. rewrite E. ring.
    - intros (a & b & E & ->).
      apply holds_bind. exists (wir a). split; [apply alloc_w; now exists a|]. apply holds_bind. exists (wir b). split; [apply alloc_w; now exists b|].
      apply holds_bind. exists (wir (a * a)). split; [now apply e_square_w|]. apply holds_bind. exists (wir (a * a * (a * a))). split; [now apply e_square_w|].
      apply holds_bind. exists (wir (a * a * (a * a) * a)). split; [now apply e_mul_w|]. apply holds_bind. exists (wir (b * b)). split; [now apply e_square_w|].
      apply holds_bind. exists tt. split.
      { cbn. split; [|reflexivity]. transitivity (a ^ 5 - b ^ 2); [cbn; ring|]. rewrite E. ring. }
      apply holds_bind. exists (wir (a + b)). split; [now apply e_add_w|]. apply holds_bind. exists (wir (a - b)). split; [now apply e_sub_w|]. reflexivity.
  Qed.
  Lemma square_holds times r : holds (square_circuit F times F f1) r <-> exists w, r = [wir (w ^ (2 ^ times)%nat)].
  Proof.
    unfold square_circuit, square_witness. rewrite holds_bind. split.
    - intros (a & Ha & H). apply alloc_w in Ha. destruct Ha as (w & ->). apply holds_bind in H. destruct H as (x & Hx & H). apply square_loop_w in Hx. subst x.
      exists w. now symmetry.
    - intros (w & ->). exists (wir w). split; [apply alloc_w; now exists w|]. apply holds_bind. eexists. split; [now apply square_loop_w|]. reflexivity.
  Qed.
  (** what they compile to *)
  Lemma simple_outs : couts (simple_circuit F) = Some [WVar 22; WVar 23]. Proof. reflexivity. Qed.
  Lemma simple_fits n : fits n (cbody (simple_circuit F)) [WVar 22; WVar 23] <-> (6 <= n)%nat.
  Proof. unfold fits. rewrite circuit_sizes. cbn. lia. Qed.
  Lemma square_compile t : forall (w : wref) m, exists w',
    snd (compile (gbind (square_loop F wref t (mk_elem F wref w None)) (fun a => GRet [a])) m) = Some [mk_elem F wref w' None] /\
    own_cons (fst (compile (gbind (square_loop F wref t (mk_elem F wref w None)) (fun a => GRet [a])) m)) = (2 * t)%nat /\
    forall h, length (rows h (fst (compile (gbind (square_loop F wref t (mk_elem F wref w None)) (fun a => GRet [a])) m))) = t.
  Proof.
    induction t as [|t IH]; intros w m; [now exists w|].
    destruct (IH (WVar (S (S m))) (S (S (S (S m))))) as (w' & E & C & R). exists w'. cbn [square_loop]. 
    unfold e_square, e_mul, g_mul, g_equal, g_enforce. cbn. cbn in E, C, R. rewrite E, C. split; [reflexivity|]. split; [lia|]. intros h. now rewrite R.
  Qed.
  Lemma square_outs times : exists o, couts (square_circuit F times) = Some [o] /\
    forall n, fits n (cbody (square_circuit F times)) [o] <-> (times + 2 <= n)%nat.
  Proof.
    destruct (square_compile times (WVar 4) 5) as (w' & E & C & R). exists w'. split.
    - unfold couts, square_circuit, square_witness, e_alloc. cbn [gbind compile fst snd]. 
      cbn in E |- *. now rewrite E.
    - intros n. unfold fits. rewrite circuit_sizes. unfold cbody, square_circuit, square_witness, e_alloc.
      cbn [gbind compile fst snd own_cons rows length map list_sum fold_right]. cbn in C, R |- *. rewrite C, R. lia.
  Qed.
  Lemma simple_s (a b : F) s : simulate (simple_witness F F (Some (a, b))) s =
    if feqb (a ^ 5) (b ^ 2) then Some ([hon (a + b); hon (a - b)], bump s 2 4 9) else None.
  Proof.
    unfold simple_witness. cbn [lift1 option_map fst snd]. rewrite sim_bind, alloc_s, sim_bind, alloc_s. unfold e_square.
    rewrite sim_bind, e_mul_s, sim_bind, e_mul_s, sim_bind, e_mul_s, sim_bind, e_mul_s, sim_bind. cbn [ew hon].
    change (g_enforce F F [LAdd (a * a * (a * a) * a); LSub (b * b)]) with (g_equal F F (a * a * (a * a) * a) (b * b)).
    assert (E5 : a * a * (a * a) * a = a ^ 5) by (cbn; ring). assert (E2 : b * b = b ^ 2) by (cbn; ring). rewrite E5, E2.
    destruct (feqb (a ^ 5) (b ^ 2)) eqn:E.
    - rewrite equal_s by (now apply feqb_true). rewrite sim_bind, e_add_s, sim_bind, e_sub_s. cbn [simulate]. now rewrite !bump_bump.
    - rewrite equal_s_bad by (now apply feqb_false). reflexivity.
  Qed.
  Lemma public_eq (c d : F) : 1 + 1 <> 0 :> F ->
    ((exists a b, a ^ 5 = b ^ 2 /\ c = a + b /\ d = a - b) <-> (c + d) ^ 5 = (1 + 1) ^ 3 * (c - d) ^ 2).
  Proof.
    intros T. split.
    - intros (a & b & E & -> & ->). transitivity ((1 + 1) ^ 5 * a ^ 5); [cbn [fpow]; ring|]. rewrite E. cbn [fpow]. ring.
    - intros E. assert (H : exists h, (1 + 1) * h = 1 :> F) by (exists (1 / (1 + 1)); field; exact T). destruct H as (h & H).
      exists ((c + d) * h), ((c - d) * h). split; [|split].
      + transitivity ((c + d) ^ 5 * h ^ 5); [cbn [fpow]; ring|]. rewrite E.
        transitivity (((1 + 1) * h) ^ 3 * ((c - d) * h) ^ 2); [cbn [fpow]; ring|]. rewrite H. cbn [fpow]. ring.
      + transitivity (c * ((1 + 1) * h)); [rewrite H; ring|ring].
      + transitivity (d * ((1 + 1) * h)); [rewrite H; ring|ring].
  Qed.
End Facts.

Open Scope f_scope.
(** ** MySimpleCircuit *)
(** Its code admits exactly the pairs a + b, a - b with a^5 = b^2; the simulator accepts
    exactly such a, b, with one gate for every multiplication and one constraint more
    than two for each of them; the instance code writes the two public values. *)
Theorem C65_simple : forall (F : Field),
  (forall r, holds (simple_circuit F F f1) r <-> exists a b, a ^ 5 = b ^ 2 /\ r = [wir (a + b); wir (a - b)]) /\
  (forall (a b : F) s, a ^ 5 = b ^ 2 -> simulate (simple_witness F F (Some (a, b))) s = Some ([hon (a + b); hon (a - b)], bump s 2 4 9)) /\
  (forall (a b : F) s, a ^ 5 <> b ^ 2 -> simulate (simple_witness F F (Some (a, b))) s = None) /\
  (forall (c d : F) s, simulate (simple_instance F F (Some (c, d))) s = Some ([hon c; hon d], bump s 2 0 0)).
Proof.
  intros F. split; [exact (simple_holds F)|].
  split; [|split].
  - intros a b s E. rewrite simple_s. now rewrite (proj2 (feqb_true F _ _) E).
  - intros a b s E. rewrite simple_s. now rewrite (proj2 (feqb_false F _ _) E).
  - intros c d s. unfold simple_instance. cbn [lift1 option_map fst snd]. rewrite sim_bind, alloc_s, sim_bind, alloc_s. cbn [simulate]. now rewrite bump_bump.
Qed.
Print Assumptions C65_simple.

(** Registered at any rank with at least six gates (and at no smaller one), a polynomial
    accepted at enough challenges for the public values c, d shows that such a, b exist,
    and every such a, b have a polynomial that passes at all challenges. *)
Definition knows {F : Field} (c d : F) : Prop := exists a b, a ^ 5 = b ^ 2 /\ c = a + b /\ d = a - b.
Theorem C65_simple_accepted : forall (F : Field) n,
  couts (simple_circuit F) = Some [WVar 22; WVar 23] /\
  (fits n (cbody (simple_circuit F)) [WVar 22; WVar 23] <-> (6 <= n)%nat) /\
  (forall (c d : F) r ys, (6 <= n)%nat -> wf 0 (4 * n) r -> NoDup ys -> (4 * n <= length ys)%nat ->
     accepted n r (cbody (simple_circuit F)) [WVar 22; WVar 23] [c; d] ys -> knows c d) /\
  (forall a b alpha : F, (6 <= n)%nat -> a ^ 5 = b ^ 2 ->
     exists r, wf 0 (4 * n) r /\ coeff_at r (4 * n - 1) = alpha /\
       forall y z, passes F n r (cbody (simple_circuit F)) [WVar 22; WVar 23] [a + b; a - b] y z).
Proof.
  intros F n. split; [apply simple_outs|]. split; [apply simple_fits|]. split.
  - intros c d r ys Hn W N L A. apply (simple_fits F) in Hn.
    destruct (C51_sound F n _ _ [c; d] r ys (simple_generic F) (simple_outs F) Hn eq_refl W N L A) as (res & H & E).
    apply simple_holds in H. destruct H as (a & b & Eab & ->). cbn [map ew wir] in E. injection E as E1 E2. exists a, b. auto.
  - intros a b alpha Hn E. apply (simple_fits F) in Hn.
    destruct (C51_complete F n _ _ [wir (a + b); wir (a - b)] alpha (simple_generic F) (simple_outs F) Hn) as (r & W & Ca & _ & P).
    + apply simple_holds. now exists a, b.
    + exists r. auto.
Qed.
Print Assumptions C65_simple_accepted.
(** In characteristic other than two this is an equation of the public values. *)
Theorem C65_public : forall (F : Field) (c d : F), 1 + 1 <> 0 :> F ->
  (knows c d <-> (c + d) ^ 5 = (1 + 1) ^ 3 * (c - d) ^ 2).
Proof. exact public_eq. Qed.
Print Assumptions C65_public.

(** ** SquareCircuit *)
(** The same for every number of squarings: the output is a 2^times-th power, the circuit
    needs times + 2 gates (the SYSTEM gate and the allocation of the input besides the
    squarings), and a rank with as many is enough. *)
Theorem C65_square : forall (F : Field) times,
  (forall r, holds (square_circuit F times F f1) r <-> exists w, r = [wir (w ^ (2 ^ times)%nat)]) /\
  (forall (w : F) s, simulate (square_witness F F times (Some w)) s = Some ([hon (w ^ (2 ^ times)%nat)], bump s 1 times (2 * times))) /\
  (forall (v : F) s, simulate (square_instance F F (Some v)) s = Some ([hon v], bump s 1 0 0)) /\
  exists o, couts (square_circuit F times) = Some [o] /\ forall n,
    (fits n (cbody (square_circuit F times)) [o] <-> (times + 2 <= n)%nat) /\
    (forall (v : F) r ys, (times + 2 <= n)%nat -> wf 0 (4 * n) r -> NoDup ys -> (4 * n <= length ys)%nat ->
       accepted n r (cbody (square_circuit F times)) [o] [v] ys -> exists w, v = w ^ (2 ^ times)%nat) /\
    (forall w alpha : F, (times + 2 <= n)%nat ->
       exists r, wf 0 (4 * n) r /\ coeff_at r (4 * n - 1) = alpha /\
         forall y z, passes F n r (cbody (square_circuit F times)) [o] [w ^ (2 ^ times)%nat] y z).
Proof.
  intros F times. split; [apply square_holds|]. split; [|split].
  - intros w s. unfold square_witness. rewrite sim_bind, alloc_s, sim_bind, square_loop_s. cbn [simulate]. now rewrite bump_bump.
  - intros v s. unfold square_instance. rewrite sim_bind, alloc_s. reflexivity.
  - destruct (square_outs F times) as (o & Eo & Ef). exists o. split; [exact Eo|]. intros n. split; [apply Ef|]. split.
    + intros v r ys Hn W N L A. apply Ef in Hn.
      destruct (C51_sound F n _ _ [v] r ys (square_generic F times) Eo Hn eq_refl W N L A) as (res & H & E).
      apply square_holds in H. destruct H as (w & ->). cbn [map ew wir] in E. injection E as E1. exists w. auto.
    + intros w alpha Hn. apply Ef in Hn.
      destruct (C51_complete F n _ _ [wir (w ^ (2 ^ times)%nat)] alpha (square_generic F times) Eo Hn) as (r & W & Ca & _ & P).
      * apply square_holds. now exists w.
      * exists r. auto.
Qed.
Print Assumptions C65_square.

(** ** examples over the field with 97 elements *)
Example C65_simple_ex : 1 + 1 <> 0 :> F97 /\ knows (l97 36) (l97 (-28)) /\ ~ knows (l97 1) (l97 0) /\
  (forall s, simulate (simple_witness F97 F97 (Some (l97 4, l97 32))) s = Some ([hon (l97 36); hon (l97 (-28))], bump s 2 4 9)) /\
  (forall s, simulate (simple_witness F97 F97 (Some (l97 4, l97 31))) s = None) /\
  exists r, wf 0 32 r /\ forall y z, passes F97 8 r (cbody (simple_circuit F97)) [WVar 22; WVar 23] [l97 36; l97 (-28)] y z.
Proof.
  assert (T : 1 + 1 <> 0 :> F97) by (intros E; apply (f_equal v97) in E; vm_compute in E; discriminate).
  assert (E1 : l97 4 + l97 32 = l97 36) by (apply gf_ext; vm_compute; reflexivity).
  assert (E2 : l97 4 - l97 32 = l97 (-28)) by (apply gf_ext; vm_compute; reflexivity).
  assert (E : (l97 4) ^ 5 = (l97 32) ^ 2) by (apply gf_ext; vm_compute; reflexivity).
  split; [exact T|]. split; [|split; [|split; [|split]]].
  - exists (l97 4), (l97 32). rewrite E1, E2. auto.
  - intros K. apply (C65_public F97 _ _ T) in K. apply (f_equal v97) in K. vm_compute in K. discriminate.
  - intros s. rewrite <- E1, <- E2. now apply C65_simple.
  - intros s. apply C65_simple. intros K. apply (f_equal v97) in K. vm_compute in K. discriminate.
  - destruct (C65_simple_accepted F97 8) as (_ & _ & _ & C). destruct (C (l97 4) (l97 32) (l97 7)) as (r & W & _ & P); [lia|exact E|].
    exists r. split; [exact W|]. rewrite E1, E2 in P. exact P.
Qed.
(** and with enough field elements for the soundness half: 4n challenges, n = 6 *)
Example C65_sound_ex : exists r ys, wf 0 24 r /\ NoDup ys /\ (24 <= length ys)%nat /\
  accepted 6 r (cbody (simple_circuit F97)) [WVar 22; WVar 23] [l97 36; l97 (-28)] ys.
Proof.
  destruct (C65_simple_accepted F97 6) as (_ & _ & _ & C).
  destruct (C (l97 4) (l97 32) (l97 7)) as (r & W & _ & P); [lia|apply gf_ext; vm_compute; reflexivity|].
  assert (E1 : l97 4 + l97 32 = l97 36) by (apply gf_ext; vm_compute; reflexivity).
  assert (E2 : l97 4 - l97 32 = l97 (-28)) by (apply gf_ext; vm_compute; reflexivity). rewrite E1, E2 in P.
  assert (N : NoDup (map (fun i => l97 (Z.of_nat i)) (seq 0 24))).
  { apply (NoDup_map_inv v97). rewrite map_map.
    assert (X : map (fun i => v97 (l97 (Z.of_nat i))) (seq 0 24) = map Z.of_nat (seq 0 24)) by (vm_compute; reflexivity). rewrite X.
    apply FinFun.Injective_map_NoDup; [intros x y; apply Nat2Z.inj|apply seq_NoDup]. }
  exists r, (map (fun i => l97 (Z.of_nat i)) (seq 0 24)). split; [exact W|]. split; [exact N|]. split; [rewrite map_length, seq_length; lia|].
  intros y _. exists (map (fun i => l97 (Z.of_nat i)) (seq 0 24)). split; [exact N|]. split; [rewrite map_length, seq_length; lia|]. intros z _. apply P.
Qed.
(** three squarings *)
Example C65_square_ex : (exists w, l97 62 = w ^ (2 ^ 3)%nat) /\
  exists o r, couts (square_circuit F97 3) = Some [o] /\ fits 5 (cbody (square_circuit F97 3)) [o] /\ ~ fits 4 (cbody (square_circuit F97 3)) [o] /\
    wf 0 20 r /\ forall y z, passes F97 5 r (cbody (square_circuit F97 3)) [o] [l97 62] y z.
Proof.
  assert (E : (l97 2) ^ (2 ^ 3)%nat = l97 62) by (apply gf_ext; vm_compute; reflexivity).
  split; [exists (l97 2); now symmetry|].
  destruct (C65_square F97 3) as (_ & _ & _ & o & Eo & C). exists o. destruct (C 5%nat) as (F5 & _ & P). destruct (C 4%nat) as (F4 & _ & _).
  destruct (P (l97 2) (l97 7)) as (r & W & _ & Q); [lia|]. exists r. split; [exact Eo|]. split; [apply F5; lia|]. split; [rewrite F4; lia|]. split; [exact W|].
  rewrite E in Q. exact Q.
Qed.

(** ** handles *)
Open Scope nat_scope.
Section Handles.
  Variable F : Field.
  Definition is_circuit (c : tcall F) : bool := match c with TCircuit _ _ => true | TBonding _ _ => false end.
  Definition fails (c : tcall F) : bool := match c with TCircuit _ None => true | _ => false end.
  Definition object (c : tcall F) : option (cobj F) := match c with TCircuit _ o => o | TBonding _ o => Some o end.
  Definition circuits_of (cs : list (tcall F)) : list (cobj F) := flat_map (fun c => match c with TCircuit _ (Some o) => [o] | _ => [] end) cs.
  Definition bondings_of (cs : list (tcall F)) : list (cobj F) := flat_map (fun c => match c with TBonding _ o => [o] | _ => [] end) cs.
  (** no circuit is registered after a bonding object *)
  Definition ordered (cs : list (tcall F)) : Prop := exists a b, cs = a ++ b /\ Forall (fun c => is_circuit c = true) a /\ Forall (fun c => is_circuit c = false) b.
  Lemma t_run_ok cs : forall ints bos, Forall (fun c => fails c = false) cs ->
    snd (t_run F cs (mk_tbuilder F (Some (mk_builder F ints bos [] [])) (length ints) (length bos))) =
      mk_tbuilder F (Some (mk_builder F (ints ++ circuits_of cs) (bos ++ bondings_of cs) [] [])) (length (ints ++ circuits_of cs)) (length (bos ++ bondings_of cs)) /\
    forall i c, nth_error cs i = Some c ->
      nth_error (fst (t_run F cs (mk_tbuilder F (Some (mk_builder F ints bos [] [])) (length ints) (length bos)))) i =
      Some (THandle (length (ints ++ circuits_of (firstn i cs)) + if is_circuit c then 0 else length (bos ++ bondings_of (firstn i cs)))).
  Proof.
    induction cs as [|c cs IH]; intros ints bos H.
    - cbn. rewrite !app_nil_r. split; [reflexivity|]. intros [|i] c E; discriminate.
    - inversion H as [|? ? Hc Hcs]; subst. cbn [t_run fst snd]. destruct c as [[o|]|o]; [|discriminate|].
      + cbn [t_register_circuit tb_inner tb_circuits tb_bonding fst snd register_internal_circuit rb_internal rb_bonding rb_steps rb_app].
        destruct (IH (ints ++ [o]) bos Hcs) as [E1 E2]. rewrite app_length in E1, E2. cbn [length] in E1, E2. rewrite Nat.add_1_r in E1, E2.
        split; [|intros i c E; destruct i as [|i]].
        * unfold register_internal_circuit. cbn [rb_internal rb_bonding rb_steps rb_app circuits_of bondings_of flat_map app]. rewrite E1. rewrite <- !app_assoc. cbn [app]. reflexivity.
        * cbn [nth_error] in E. injection E as <-. cbn [nth_error firstn circuits_of flat_map is_circuit]. now rewrite app_nil_r, Nat.add_0_r.
        * cbn [nth_error] in E |- *. unfold register_internal_circuit. cbn [rb_internal rb_bonding rb_steps rb_app]. rewrite (E2 i c E).
          cbn [firstn circuits_of bondings_of flat_map app]. rewrite <- app_assoc. reflexivity.
      + cbn [t_register_bonding tb_inner tb_circuits tb_bonding fst snd].
        destruct (IH ints (bos ++ [o]) Hcs) as [E1 E2]. rewrite (app_length bos [o]) in E1, E2. cbn [length] in E1, E2. rewrite Nat.add_1_r in E1, E2.
        split; [|intros i c E; destruct i as [|i]].
        * unfold register_bonding. cbn [rb_internal rb_bonding rb_steps rb_app circuits_of bondings_of flat_map app]. rewrite E1. rewrite <- !app_assoc. cbn [app]. reflexivity.
        * cbn [nth_error] in E. injection E as <-. cbn [nth_error firstn circuits_of bondings_of flat_map is_circuit]. now rewrite !app_nil_r.
        * cbn [nth_error] in E |- *. unfold register_bonding. cbn [rb_internal rb_bonding rb_steps rb_app]. rewrite (E2 i c E).
          cbn [firstn circuits_of bondings_of flat_map app]. rewrite <- app_assoc. reflexivity.
  Qed.
  Lemma circuits_len cs : Forall (fun c => fails c = false) cs -> length (circuits_of cs) = 0 -> Forall (fun c => is_circuit c = false) cs.
  Proof.
    induction 1 as [|c cs Hc H IH]; intros L; [constructor|]. destruct c as [[o|]|o]; [discriminate L|discriminate Hc|]. constructor; [reflexivity|]. now apply IH.
  Qed.
  Lemma ordered_spec cs : Forall (fun c => fails c = false) cs ->
    (ordered cs <-> forall i o, nth_error cs i = Some (TBonding F o) -> length (circuits_of (firstn i cs)) = length (circuits_of cs)).
  Proof.
    intros Hf. split.
    - intros (a & b & -> & Ha & Hb) i o E.
      assert (Cb : forall l, Forall (fun c => is_circuit c = false) l -> circuits_of l = []).
      { induction 1 as [|c l Hc Hl IH]; [reflexivity|]. destruct c; [discriminate Hc|exact IH]. }
      assert (Hi : length a <= i).
      { destruct (Nat.le_gt_cases (length a) i) as [|Hlt]; [assumption|]. rewrite nth_error_app1 in E by exact Hlt. apply nth_error_In in E. rewrite Forall_forall in Ha. apply Ha in E. discriminate. }
      rewrite firstn_app, (firstn_all2 a) by exact Hi. unfold circuits_of. rewrite !flat_map_app. fold (circuits_of b). fold (circuits_of (firstn (i - length a) b)).
      rewrite (Cb b Hb), (Cb (firstn (i - length a) b)); [reflexivity|]. rewrite Forall_forall in *. intros x Hx. apply Hb. rewrite <- (firstn_skipn (i - length a) b). apply in_or_app. now left.
    - induction Hf as [|c cs Hc Hf IH]; intros Q; [exists [], []; auto|]. destruct c as [[o|]|o]; [|discriminate|].
      + destruct IH as (a & b & -> & Ha & Hb).
        { intros i o' E. specialize (Q (S i) o' E). cbn in Q. injection Q as Q. exact Q. }
        exists (TCircuit F (Some o) :: a), b. split; [reflexivity|]. split; [now constructor|exact Hb].
      + specialize (Q 0 o eq_refl). cbn in Q. exists [], (TBonding F o :: cs). split; [reflexivity|]. split; [constructor|]. constructor; [reflexivity|]. apply circuits_len; [exact Hf|]. unfold circuits_of. now rewrite <- Q.
  Qed.
  Lemma place_ok {A : Type} (f : tcall F -> list A) cs : forall i c x, nth_error cs i = Some c -> f c = [x] -> nth_error (flat_map f cs) (length (flat_map f (firstn i cs))) = Some x.
  Proof.
    induction cs as [|c0 cs IH]; intros [|i] c x E Ef; try discriminate; cbn in E.
    - injection E as ->. cbn. now rewrite Ef.
    - cbn [firstn flat_map]. rewrite app_length, nth_error_app2 by lia. replace (length (f c0) + _ - length (f c0)) with (length (flat_map f (firstn i cs))) by lia. eapply IH; eauto.
  Qed.
End Handles.
(** If no circuit is refused and none is registered after a bonding object, every handle
    names its object in the finalized registry.  Handles name the places of their objects
    only then: a circuit registered later moves the bonding objects. *)
Definition place {F : Field} (cs : list (tcall F)) (i : nat) (c : tcall F) : nat :=
  if is_circuit F c then length (circuits_of F (firstn i cs)) else length (circuits_of F cs) + length (bondings_of F (firstn i cs)).
Theorem C65_handles : forall (F : Field) (T : TwoAdic F) lg repr hash to_bytes from_uniform f_of_u64 (cs : list (tcall F)),
  Forall (fun c => fails F c = false) cs ->
  let rs := fst (t_run F cs (tb_new F)) in let b := snd (t_run F cs (tb_new F)) in
  length rs = length cs /\
  (forall i c, nth_error cs i = Some c -> exists h, nth_error rs i = Some (THandle h)) /\
  (forall r i c, t_finalize F (finalize F T lg repr hash to_bytes from_uniform f_of_u64) b = Some r -> nth_error cs i = Some c ->
     nth_error (rg_circuits F r) (place cs i c) = object F c) /\
  (ordered F cs <-> forall i c h, nth_error cs i = Some c -> nth_error rs i = Some (THandle h) -> h = place cs i c).
Proof.
  intros F T lg repr hash to_bytes from_uniform f_of_u64 cs Hf rs b.
  destruct (t_run_ok F cs [] [] Hf) as [E1 E2]. cbn [length app] in E1, E2. change (mk_tbuilder F (Some (mk_builder F [] [] [] [])) 0 0) with (tb_new F) in E1, E2.
  fold b in E1. fold rs in E2.
  assert (L : forall cs b, length (fst (t_run F cs b)) = length cs).
  { intros cs'. induction cs' as [|c cs' IH]; intros b'; cbn [t_run fst length]; [reflexivity|]. now rewrite IH. }
  split; [apply L|]. split; [|split].
  - intros i c E. eexists. apply (E2 i c E).
  - intros r i c Er E. rewrite E1 in Er. unfold t_finalize in Er. cbn [tb_inner] in Er.
    assert (Ec : rg_circuits F r = circuits_of F cs ++ bondings_of F cs ++ [] ++ []).
    { unfold finalize in Er. destruct (rk_nc lg <? _); [discriminate|]. cbn [rb_internal rb_bonding rb_steps rb_app] in Er.
      destruct (domain_new T _) as [d|]; [|discriminate]. cbn [obind] in Er. destruct (compute_registry_digest _ _ _ _ _ _ _ _) as [k|]; [|discriminate]. cbn [obind] in Er. injection Er as <-. reflexivity. }
    rewrite Ec. cbn [app]. rewrite app_nil_r. unfold place. pose proof (nth_error_In _ _ E) as Hin. rewrite Forall_forall in Hf. apply Hf in Hin.
    destruct c as [[o|]|o]; [|discriminate|]; cbn [is_circuit object].
    + rewrite nth_error_app1; [now apply (place_ok F _ cs i (TCircuit F (Some o)) o E)|].
      apply nth_error_Some. unfold circuits_of. now rewrite (place_ok F _ cs i (TCircuit F (Some o)) o E eq_refl).
    + rewrite nth_error_app2 by lia. replace (length (circuits_of F cs) + length (bondings_of F (firstn i cs)) - length (circuits_of F cs)) with (length (bondings_of F (firstn i cs))) by lia.
      now apply (place_ok F _ cs i (TBonding F o) o E).
  - rewrite (ordered_spec F cs Hf). split.
    + intros Q i c h E Eh. rewrite (E2 i c E) in Eh. injection Eh as <-. unfold place. destruct c as [o|o]; cbn [is_circuit]; [lia|]. f_equal. exact (Q i o E).
    + intros Q i o E. specialize (Q i _ _ E (E2 i _ E)). unfold place in Q. cbn [is_circuit] in Q. lia.
Qed.
Print Assumptions C65_handles.
(** After a refused circuit every further call panics, and nothing can be finalized. *)
Theorem C65_poisoned : forall (F : Field) (cs1 cs2 : list (tcall F)) fin, Forall (fun c => fails F c = false) cs1 ->
  let r := t_run F (cs1 ++ TCircuit F None :: cs2) (tb_new F) in
  skipn (length cs1) (fst r) = TError :: repeat TPanic (length cs2) /\ t_finalize F fin (snd r) = None.
Proof.
  intros F cs1 cs2 fin Hf.
  assert (P : forall cs m n, t_run F cs (mk_tbuilder F None m n) = (repeat TPanic (length cs), mk_tbuilder F None m n)).
  { induction cs as [|c cs IH]; intros m n; [reflexivity|]. cbn [t_run]. destruct c; cbn [t_register_circuit t_register_bonding tb_inner fst snd]; now rewrite IH. }
  assert (A : forall a c b, t_run F (a ++ c) b = (fst (t_run F a b) ++ fst (t_run F c (snd (t_run F a b))), snd (t_run F c (snd (t_run F a b))))).
  { induction a as [|x a IH]; intros c b; cbn [app t_run fst snd]; [now destruct (t_run F c b)|]. now rewrite IH. }
  destruct (t_run_ok F cs1 [] [] Hf) as [E1 _]. cbn [length app] in E1. change (mk_tbuilder F (Some (mk_builder F [] [] [] [])) 0 0) with (tb_new F) in E1.
  assert (L : length (fst (t_run F cs1 (tb_new F))) = length cs1).
  { generalize (tb_new F). induction cs1 as [|c cs' IH]; intros b'; cbn [t_run fst length]; [reflexivity|]. inversion Hf; subst. f_equal. clear -F. revert b'. generalize (c). intros c' b'. generalize (snd match c' with TCircuit _ o => t_register_circuit F o b' | TBonding _ o => t_register_bonding F o b' end).
    induction cs' as [|d ds IHd]; intros b2; cbn [t_run fst length]; [reflexivity|]. now rewrite IHd. }
  cbv zeta. rewrite A. cbn [fst snd]. rewrite skipn_app, skipn_all2 by lia. rewrite L, Nat.sub_diag. cbn [skipn app].
  rewrite E1. cbn [t_run t_register_circuit tb_inner tb_circuits tb_bonding fst snd]. rewrite P. cbn [fst snd]. split; reflexivity.
Qed.
Print Assumptions C65_poisoned.
(** two circuits, then a bonding object: handles 0, 1, 2; with a circuit after the bonding
    object both have handle 1 *)
Example C65_handles_ex : let o k := mk_cobj F97 (fun _ _ _ => None) (fun _ _ => None) (fun _ _ => None) [(k, k)] in
  let good := [TCircuit F97 (Some (o 1)); TCircuit F97 (Some (o 2)); TBonding F97 (o 3)] in
  let bad := [TCircuit F97 (Some (o 1)); TBonding F97 (o 3); TCircuit F97 (Some (o 2))] in
  ordered F97 good /\ ~ ordered F97 bad /\ Forall (fun c => fails F97 c = false) bad /\
  fst (t_run F97 good (tb_new F97)) = map THandle [0; 1; 2] /\ fst (t_run F97 bad (tb_new F97)) = map THandle [0; 1; 1] /\
  fst (t_run F97 [TCircuit F97 (Some (o 1)); TCircuit F97 None; TBonding F97 (o 3)] (tb_new F97)) = [THandle 0; TError; TPanic].
Proof.
  intros o good bad. assert (Hb : Forall (fun c => fails F97 c = false) bad) by (repeat constructor).
  split; [|split; [|split; [exact Hb|repeat split]]].
  - exists [TCircuit F97 (Some (o 1)); TCircuit F97 (Some (o 2))], [TBonding F97 (o 3)]. split; [reflexivity|]. split; repeat constructor.
  - rewrite (ordered_spec F97 bad Hb). intros Q. specialize (Q 1 (o 3) eq_refl). discriminate Q.
Qed.
