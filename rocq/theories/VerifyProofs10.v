(** When an application builds. *)
From Coq Require Import List Arith NArith Bool Lia Ring Field.
From Verif Require Import FieldDef ModDef ArithModel ArithSpec ArithProofs FFTModel FFTProofs SparseModel SparseSpec SparseProofs SparseProofs2 TModel TProofs
  FoldModel FoldSpec ClaimModel CircModel CircSpec SyModel SProofs TraceModel CircProofs CircProofs2 SyProofs SyProofs2 SatProofs GadgetModel SpongeModel StageModel StageSpec StageProofs RegModel RegSpec RegProofs RegProofs2
  PcdModel PcdSpec PcdProofs2 RecModel RecSpec CompileModel CompileSpec CompileSpec2 CompileProofs CompileProofs2 RecStageModel RecStageSpec RecStageProofs
  AppModel AppSpec AppProofs Props_Reg Props_Stage Props_App Props_Step
  VerifyModel VerifySpec VerifySpec2 VerifyProofs VerifyProofs2 VerifyProofs3 VerifyProofs4 VerifyProofs5 VerifyProofs6 VerifyProofs7 VerifyProofs8.
Import ListNotations.
Local Open Scope nat_scope.

Lemma objs_in {A B : Type} (f : A -> option B) : forall l o x, objs f l = Some o -> In x o -> exists a, In a l /\ f a = Some x.
Proof.
  intros l o x E I. apply objs_map in E. apply (in_map Some) in I. rewrite <- E in I. apply in_map_iff in I. destruct I as (a & Ea & Ia). now exists a.
Qed.
Lemma forall_exists2 {A B : Type} (R : A -> B -> Prop) : forall l, Forall (fun a => exists b, R a b) l -> exists bs, Forall2 R l bs.
Proof. induction 1 as [|a l (b & Hb) _ (bs & Hbs)]; [exists []; constructor|exists (b :: bs); now constructor]. Qed.

Lemma app_order (F Fs : Field) (l : list (step F)) b nsteps (iobj : nat -> icid -> option (cobj F)) sobj (nobj : ncid -> option (cobj Fs)) nb sb :
  register_steps F Fs (ab_new F Fs) l = Some b -> app_finalize F Fs nsteps iobj sobj nobj b = Some (nb, sb) ->
  let io := iobj (Nat.log2_up (length l + 15)) in
  (forall o, In o (reg_order nb) -> exists p, place_ok (length l) p /\ place_obj l io sobj p = Some o) /\
  length (reg_order nb) = length l + 15 /\
  (forall o, In o (reg_order sb) -> exists id, In id (ncid_all nsteps) /\ nobj id = Some o) /\
  length (reg_order sb) = nsteps + 11.
Proof.
  intros Hb E io. destruct (C37_slots F Fs l b nsteps iobj sobj nobj Hb) as [_ X]. cbv zeta in X. destruct (X nb sb E) as [Ln _]. clear X.
  destruct (steps_ok F Fs l _ _ (new_ok F Fs)) as (P & _). specialize (P b Hb). cbn [app] in P. destruct P as (A & I & B & St & Ne & N & _).
  unfold app_finalize, total_circuit_counts in E. rewrite N in E. unfold NUM_INTERNAL_STEPS, NUM_INTERNAL_CIRCUITS in E.
  replace (length l + 2 + 13) with (length l + 15) in E by lia. fold io in E.
  unfold native_register_all in E. rewrite (proj2 (native_fold F io icid_all (ab_native b))) in E.
  unfold nested_register_all in E. rewrite nested_fold in E. destruct (filter_steps nsteps) as (FS1 & FS2). rewrite FS1, FS2 in E. clear FS1 FS2.
  rewrite I, B, St, Ne in E. cbn [app] in E.
  destruct (objs io (filter (fun i => negb (is_mask i)) icid_all)) as [oc|] eqn:Eoc; cbn [obind] in E; [|discriminate].
  destruct (objs io (filter is_mask icid_all)) as [om|] eqn:Eom; cbn [obind] in E; [|discriminate].
  destruct (_ =? _) in E; [|discriminate]. cbn [obind] in E.
  destruct (sobj IRerandomize) as [o1|] eqn:E1; cbn [obind] in E; [|discriminate].
  destruct (sobj ITrivial) as [o2|] eqn:E2; cbn [obind] in E; [|discriminate].
  destruct (negb _) in E; [discriminate|]. destruct (negb _) in E; [discriminate|].
  match type of E with context[objs nobj (map NStep ?s)] => destruct (objs nobj (map NStep s)) as [on|] eqn:Eon; cbn [obind] in E; [|discriminate] end.
  match type of E with context[objs nobj ?s] => destruct (objs nobj s) as [onm|] eqn:Eonm; cbn [obind] in E; [|discriminate] end.
  destruct (_ =? _) in E; [|discriminate]. cbn [obind] in E. injection E as <- <-.
  split; [|split; [|split]].
  - intros o Ho. unfold reg_order in Ho. cbn [register_internal_step rb_internal rb_bonding rb_steps rb_app] in Ho. repeat rewrite in_app_iff in Ho.
    destruct Ho as [Ho|[Ho|[Ho|Ho]]].
    + destruct (objs_in _ _ _ _ Eoc Ho) as (id & _ & Eid). exists (PCircuit id). split; [exact Logic.I|exact Eid].
    + destruct (objs_in _ _ _ _ Eom Ho) as (id & _ & Eid). exists (PCircuit id). split; [exact Logic.I|exact Eid].
    + cbn [In] in Ho. assert (Hs : o1 = o \/ o2 = o) by tauto. destruct Hs as [<-|<-]; [exists (PStep IRerandomize)|exists (PStep ITrivial)]; (split; [exact Logic.I|assumption]).
    + apply In_nth_error in Ho. destruct Ho as (j & Ej). apply (f_equal (fun q => nth_error q j)) in A. rewrite !nth_error_map in A.
      rewrite Ej in A. cbn [option_map] in A. destruct (nth_error l j) as [s|] eqn:Es; cbn [option_map] in A; [|discriminate]. injection A as A.
      exists (PApp j). split; [cbn; apply nth_error_Some; congruence|]. cbn [place_obj]. now rewrite Es.
  - rewrite order_length. exact Ln.
  - intros o Ho. unfold reg_order in Ho. cbn [rb_internal rb_bonding rb_steps rb_app rb_new app] in Ho. repeat rewrite in_app_iff in Ho.
    unfold ncid_all. cbn [In] in Ho. assert (Hs : In o on \/ In o onm) by tauto. clear Ho. destruct Hs as [Ho|Ho].
    + destruct (objs_in _ _ _ _ Eon Ho) as (id & Ii & Eid). exists id. split; [apply in_or_app; left; exact Ii|exact Eid].
    + destruct (objs_in _ _ _ _ Eonm Ho) as (id & Ii & Eid). exists id. split; [apply in_or_app; right; exact Ii|exact Eid].
  - unfold reg_order. cbn [rb_internal rb_bonding rb_steps rb_app rb_new app]. rewrite !app_length. apply objs_len in Eon, Eonm. rewrite Eon, Eonm, map_length, seq_length. reflexivity.
Qed.

Section Build.
  Variables (F Fs : Field) (T : TwoAdic F) (Ts : TwoAdic Fs) (lg : nat).
  Variables (repr : F -> N) (reprs : Fs -> N).
  Variables (hash : list N -> list N) (to_bytes : F -> list N) (from_uniform : list N -> F) (f_of_u64 : N -> F).
  Variables (hash' : list N -> list N) (to_bytes' : Fs -> list N) (from_uniform' : list N -> Fs) (f_of_u64' : N -> Fs).
  Variables (x0 x1 x2 x3 yc onec hc : F) (cb : F) (hs M N' : nat) (P : pparams F) (of_u : N -> F) (tag : list N)
    (nbits : nat) (gen : F) (fsqrt : F -> option F) (zeta : F).
  Variables (l : list (step F)) (sobj : istep -> option (cobj F)) (nsteps : nat) (nobj : ncid -> option (cobj Fs)).
  Variable code : place -> circuit F.
  Local Notation log2 := (Nat.log2_up (length l + 15)).
  Local Notation io := (iobj F T lg x0 x1 x2 x3 yc onec hc cb hs M N' P of_u tag nbits gen fsqrt zeta log2).
  Variable b : app_builder F Fs.
  Hypothesis Hb : register_steps F Fs (ab_new F Fs) l = Some b.
  Hypothesis S32 : ta_S T <= 32 /\ ta_S Ts <= 32.
  Hypothesis Hcode : forall p, step_place (length l) p -> generic (code p) /\ exists outs, couts (code p) = Some outs /\ length outs = 3 * hs /\
              place_obj l io sobj p = prog_cobj x0 x1 x2 x3 yc onec hc lg (cbody (code p)) outs.
  Hypothesis Hnested : forall id o, In id (ncid_all nsteps) -> nobj id = Some o -> exists s, obj_is lg o s.
  Hypothesis Hcount : (N.of_nat (nsteps + 11) < 2 ^ 32)%N.
  Hypothesis Hkey : forall w w' : F, fpow w (2 ^ log2) = f1 -> fpow w' (2 ^ log2) = f1 -> omega_key F repr w = omega_key F repr w' -> w = w'.
  Hypothesis Hkey' : forall w w' : Fs, fpow w (2 ^ Nat.log2_up (nsteps + 11)) = f1 -> fpow w' (2 ^ Nat.log2_up (nsteps + 11)) = f1 ->
              omega_key Fs reprs w = omega_key Fs reprs w' -> w = w'.

  (** the application builds if and only if every circuit can be built and the
      circuits fit the registries *)
  Lemma build_iff :
    (exists native nested, built F Fs T Ts lg repr reprs hash to_bytes from_uniform f_of_u64 hash' to_bytes' from_uniform' f_of_u64'
       x0 x1 x2 x3 yc onec hc cb hs M N' P of_u tag nbits gen fsqrt zeta l sobj nsteps nobj code native nested) <->
    (forall id, io id <> None) /\ (forall i, sobj i <> None) /\ (forall id, In id (ncid_all nsteps) -> nobj id <> None) /\
    length l + 15 <= 4 * 2 ^ lg /\ log2 <= ta_S T /\ nsteps + 11 <= 4 * 2 ^ lg /\ Nat.log2_up (nsteps + 11) <= ta_S Ts.
  Proof.
    set (ig := iobj F T lg x0 x1 x2 x3 yc onec hc cb hs M N' P of_u tag nbits gen fsqrt zeta).
    destruct (C37_slots F Fs l b nsteps ig sobj nobj Hb) as [X _]. cbv zeta in X.
    assert (Fin : forall nb sb, app_finalize F Fs nsteps ig sobj nobj b = Some (nb, sb) ->
      (finalize F T lg repr hash to_bytes from_uniform f_of_u64 nb <> None <-> length l + 15 <= 4 * 2 ^ lg /\ log2 <= ta_S T) /\
      (finalize Fs Ts lg reprs hash' to_bytes' from_uniform' f_of_u64' sb <> None <-> nsteps + 11 <= 4 * 2 ^ lg /\ Nat.log2_up (nsteps + 11) <= ta_S Ts)).
    { intros nb sb E. destruct (app_order F Fs l b nsteps ig sobj nobj nb sb Hb E) as (O1 & L1 & O2 & L2). cbv zeta in O1.
      destruct (forall_exists2 (obj_is lg) (reg_order nb)) as (ss & Fss).
      { apply Forall_forall. intros o Io. destruct (O1 o Io) as (p & Op & Ep). destruct p as [id|s|j].
        - exact (io_is F T lg x0 x1 x2 x3 yc onec hc cb hs M N' P of_u tag nbits gen fsqrt zeta l id o Ep).
        - destruct (Hcode (PStep s) Logic.I) as (G & outs & Eo & _ & Eq). destruct (circuit_owned (code (PStep s)) outs G Eo) as [O Hh]. destruct (hides_split _ _ Hh) as [H1 H2].
          unfold ig in Ep. rewrite Eq in Ep. eexists. exact (prog_cobj_is F x0 x1 x2 x3 yc onec hc lg _ _ _ Ep O H1 H2).
        - destruct (Hcode (PApp j) Op) as (G & outs & Eo & _ & Eq). destruct (circuit_owned (code (PApp j)) outs G Eo) as [O Hh]. destruct (hides_split _ _ Hh) as [H1 H2].
          unfold ig in Ep. rewrite Eq in Ep. eexists. exact (prog_cobj_is F x0 x1 x2 x3 yc onec hc lg _ _ _ Ep O H1 H2). }
      destruct (forall_exists2 (obj_is lg) (reg_order sb)) as (ss' & Fss').
      { apply Forall_forall. intros o Io. destruct (O2 o Io) as (id & Ii & Ei). exact (Hnested id o Ii Ei). }
      pose proof (forall2_length _ _ _ Fss) as Ls. pose proof (forall2_length _ _ _ Fss') as Ls'.
      split.
      - destruct (C21_finalize F T lg repr hash to_bytes from_uniform f_of_u64 nb ss (proj1 S32) Fss) as [Y _]; rewrite <- Ls, L1 in *; [exact Hkey|exact Y].
      - destruct (C21_finalize Fs Ts lg reprs hash' to_bytes' from_uniform' f_of_u64' sb ss' (proj2 S32) Fss') as [Y _]; rewrite <- Ls', L2 in *; [exact Hkey'|exact Y]. }
    split.
    - intros (native & nested & B). destruct (bl_run _ _ _ _ _ _ _ _ _ _ _ _ _ _ _ _ _ _ _ _ _ _ _ _ _ _ _ _ _ _ _ _ _ _ _ _ _ _ _ _ B) as (b' & nb & sb & E1 & E2 & E3 & E4).
      rewrite Hb in E1. injection E1 as <-. fold ig in E2. destruct (proj1 X ltac:(congruence)) as (A1 & A2 & A3). destruct (Fin nb sb E2) as [F1 F2].
      destruct (proj1 F1 ltac:(congruence)). destruct (proj1 F2 ltac:(congruence)). repeat split; auto.
    - intros (A1 & A2 & A3 & A4 & A5 & A6 & A7). destruct (app_finalize F Fs nsteps ig sobj nobj b) as [[nb sb]|] eqn:E; [|exfalso; apply (proj2 X); auto].
      destruct (Fin nb sb eq_refl) as [F1 F2]. destruct (finalize F T lg repr hash to_bytes from_uniform f_of_u64 nb) as [native|] eqn:En; [|exfalso; apply (proj2 F1); auto].
      destruct (finalize Fs Ts lg reprs hash' to_bytes' from_uniform' f_of_u64' sb) as [nested|] eqn:Es; [|exfalso; apply (proj2 F2); auto].
      exists native, nested. constructor; auto. exists b, nb, sb. auto.
  Qed.
End Build.
