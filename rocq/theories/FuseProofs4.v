(** The prover's step: its polynomials over the other curve. *)
From Coq Require Import List Arith NArith Bool Lia.
From Verif Require Import FieldDef ModDef ArithModel FFTModel SparseModel SparseSpec GadgetModel EndoSpec EscModel FoldModel SpongeModel ClaimModel StageModel RegModel PcdModel QvModel
  RecModel RecSpec RecStageModel RecStageSpec VerifyModel VerifySpec NestedModel NestedSpec FuseModel FuseSpec FuseProofs3.
Import ListNotations.
Local Open Scope nat_scope.

Lemma opt_all_map {A B : Type} (f : A -> option B) : forall l rs, opt_all f l = Some rs -> map f l = map Some rs.
Proof.
  induction l as [|a l IH]; intros rs E; cbn [opt_all] in E.
  - injection E as <-. reflexivity.
  - destruct (f a) as [b|] eqn:Ea; [|discriminate]. destruct (opt_all f l) as [bs|]; [|discriminate]. cbn [option_map] in E. injection E as <-. cbn [map]. now rewrite Ea, (IH bs).
Qed.
Lemma map_split {A B : Type} (f : A -> option B) : forall l m rs, map f (l ++ m) = map Some rs -> exists r1 r2, rs = r1 ++ r2 /\ map f l = map Some r1 /\ map f m = map Some r2.
Proof.
  induction l as [|a l IH]; intros m rs E; [exists [], rs; auto|]. destruct rs as [|x rs]; [discriminate|]. cbn [app map] in E. injection E as E1 E2.
  destruct (IH m rs E2) as (r1 & r2 & -> & A1 & A2). exists (x :: r1), r2. split; [reflexivity|]. split; [cbn [map]; now rewrite E1, A1|exact A2].
Qed.

Section Nested.
  Variables (F Fs : Field) (H : FMod F) (Hs : FMod Fs).
  Variables (aff : H -> option (Fs * Fs)) (aff' : Hs -> option (F * F)).
  Variables (T : TwoAdic F) (lg : nat) (repr : F -> N) (native : registry F).
  Variables (gens : list H) (gens' : list Hs).
  Variables (cb : F) (hs M N' : nat) (P : pparams F) (of_u : BinNums.N -> F) (tag : list BinNums.N)
    (nbits : nat) (gen : F) (fsqrt : F -> option F) (zeta : F).
  Local Notation n := (2 ^ lg).
  Local Notation NC := (4 * 2 ^ lg).

  Lemma bridge_inv parents v al pts br : bridge_commit F Fs H Hs aff aff' lg gens' parents v al pts = Some br ->
    exists ps, map aff pts = map Some ps /\ stage_rx n parents v al (coords ps) = Some (br_rx br) /\
      exists c, p_commit NC gens' (br_rx br) = Some c /\ br_commitment br = aff' c.
  Proof.
    unfold bridge_commit. destruct (opt_all aff pts) as [ps|] eqn:E1; [|discriminate]. cbn [obind]. apply opt_all_map in E1.
    change (xys Fs ps) with (coords ps). change (rk_n lg) with n. change (rk_nc lg) with NC.
    destruct (stage_rx n parents v al (coords ps)) as [rx|] eqn:E2; [|discriminate]. cbn [obind]. destruct (p_commit NC gens' rx) as [c|] eqn:E3; [|discriminate].
    cbn [option_map]. intros E. injection E as <-. exists ps. split; [exact E1|]. cbn [br_rx br_commitment]. split; [exact E2|]. exists c. auto.
  Qed.

  Variables (l r : fproof F Fs H) (ol or : list F) (bl : blinds F Fs) (R : frun F Fs H).
  Hypothesis Run : fuse_core F Fs H Hs aff aff' T lg repr native gens gens' cb hs M N' P of_u tag nbits gen fsqrt zeta l r ol or bl = inr R.
  Theorem nested_core : bridged lg nbits zeta Hs aff aff' gens' bl l r R.
  Proof.
    pose proof Run as E. unfold fuse_core in E.
    st E prew E1. st E prerx E2. st E pre E3. cbv zeta in E. st E bpre E4. st E d1 E5. st E wd E6. cbv zeta in E.
    st E wx0p E7. st E wx1p E8. st E wx0 E9. st E wx1 E10. st E bsp E11. st E d2 E12. st E yd E13. cbv zeta in E. st E zd E14. cbv zeta in E.
    st E claims E15. cbv zeta in E. st E ie E16. st E ierx E17. st E wyp E18. st E wy E19. st E ies E20. st E bie E21. st E d3 E22.
    st E sponge E23. st E mud E24. cbv zeta in E. st E nud E25. cbv zeta in E. destruct (feqb (fst mud) f0) eqn:Emu; [discriminate E|].
    st E a1 E26. st E b1 E27. st E em E28. st E oet E29. cbv zeta in E. st E oerx E30. st E oes E31. st E boe E32. st E d4 E33.
    st E mu'd E34. cbv zeta in E. st E nu'd E35. cbv zeta in E. destruct (feqb (fst mu'd) f0) eqn:Emu'; [discriminate E|].
    st E at_ E36. st E bp E37. st E bb E38. cbv zeta in E. st E bab E39. st E d5 E40. st E xd E41. cbv zeta in E.
    st E xyp E42. st E xy E43. cbv zeta in E. st E qrx E44. st E qs E45. st E bq E46. st E d6 E47. st E ald E48. cbv zeta in E.
    st E fp E49. st E f E50. st E bf E51. st E d7 E52. st E ud E53. cbv zeta in E. st E erx E54. st E es E55. st E be E56. st E d8 E57. st E pbd E58. cbv zeta in E.
    st E endo E59. cbv zeta in E. st E pcv E60. st E pw E61. st E esc E62. st E pxy E63. st E pts E64.
    match type of E with inr ?x = inr ?y => assert (ER : x = y) by congruence end. clear E Run. subst R.
    constructor; cbn [fr_bridge fr_endo fr_f fr_ps fr_points fr_esc fr_pts].
    - intros j Hj. cbv zeta. destruct j as [|[|[|[|[|[|[|[|j]]]]]]]]; [..|lia].
      + exact (bridge_inv _ _ _ _ _ E4).
      + exact (bridge_inv _ _ _ _ _ E11).
      + exact (bridge_inv _ _ _ _ _ E21).
      + exact (bridge_inv _ _ _ _ _ E32).
      + exact (bridge_inv _ _ _ _ _ E39).
      + exact (bridge_inv _ _ _ _ _ E46).
      + exact (bridge_inv _ _ _ _ _ E51).
      + exact (bridge_inv _ _ _ _ _ E56).
    - exact E61.
    - exact E62.
    - apply opt_all_map in E63. destruct pxy as [|p0 pxy]; [discriminate|]. cbn [map] in E63. injection E63 as A0 A1.
      apply map_split in A1. destruct A1 as (qs' & ints & -> & A1 & A2). exists p0, qs', ints. repeat (split; [assumption|]). exact E64.
  Qed.
End Nested.
