(** The verifier, step by step. *)
From Coq Require Import List Arith NArith Bool Lia Permutation Ring Field.
From Verif Require Import FieldDef ModDef ArithModel ArithSpec FFTModel SparseModel SparseSpec SparseProofs SparseProofs2 TModel GadgetModel FoldModel FoldSpec ClaimModel
  CircModel SyModel TraceModel RegModel AppModel AppSpec AppProofs PcdModel PcdSpec PcdProofs PcdProofs2 RecModel RecSpec EmuModel SatProofs VerifyModel VerifySpec.
Import ListNotations.
Local Open Scope nat_scope.

(** ** the expected values under the wireless emulator *)
Section Ky.
  Variable F : Field.
  Add Field FFvk : (f_theory F).
  Open Scope f_scope.
  Lemma ew_bind {A B : Type} (p : G F unit A) (k : A -> G F unit B) :
    emulate_wireless (gbind p k) = obind (emulate_wireless p) (fun a => emulate_wireless (k a)).
  Proof. induction p as [a| |w k' IH|v k' IH|lc k' IH|lc k' IH]; cbn [gbind emulate_wireless obind]; auto. Qed.
  Definition ve (v : F) : elem F unit := mk_elem F unit tt (Some v).
  Lemma ew_alloc v : emulate_wireless (e_alloc F unit (Some v)) = Some (ve v).
  Proof. reflexivity. Qed.
  Lemma ew_zero : emulate_wireless (e_zero F unit tt true) = Some (ve 0).
  Proof. reflexivity. Qed.
  Lemma ew_write y acc v : emulate_wireless (hz_write (ve y) (option_map ve acc) (ve v)) = Some (option_map ve (horner_write y acc v)).
  Proof. destruct acc; reflexivity. Qed.
  Lemma ew_writes y vs : forall acc, emulate_wireless (hz_writes F unit (ve y) (option_map ve acc) (map ve vs)) = Some (option_map ve (fold_left (horner_write y) vs acc)).
  Proof.
    induction vs as [|v vs IH]; intros acc; cbn [hz_writes map fold_left]; [reflexivity|].
    rewrite ew_bind, ew_write. cbn [obind]. apply IH.
  Qed.
  Lemma ew_finish y acc : emulate_wireless (hz_finish_ky F unit tt true (ve y) (option_map ve acc)) = Some (ve (horner_finish_ky y acc)).
  Proof.
    unfold hz_finish_ky. rewrite ew_bind. change (e_one F unit tt true) with (ve 1). rewrite ew_write. cbn [obind].
    unfold horner_finish_ky. destruct acc; reflexivity.
  Qed.
  Lemma k_of_fold (os : list F) (y : F) : horner_finish_ky y (fold_left (horner_write y) os None) = k_of os y.
  Proof. unfold k_of. rewrite ky_fold. ring. Qed.

  Definition vp (q : F * F) : point F unit := mk_point F unit (ve (fst q)) (ve (snd q)).
  Lemma ew_point cb (q : option (F * F)) : emulate_wireless (p_alloc F unit tt cb (Some q)) = option_map vp q.
  Proof. destruct q as [[x y]|]; reflexivity. Qed.
  Lemma ew_alloc_all (vs : list F) : emulate_wireless (alloc_all F unit (map Some vs)) = Some (map ve vs).
  Proof. induction vs as [|v vs IH]; [reflexivity|]. cbn [map alloc_all]. rewrite ew_bind, ew_alloc. cbn [obind]. rewrite ew_bind, IH. reflexivity. Qed.
  Lemma ew_header hs (vs : list F) : length vs = hs -> emulate_wireless (alloc_header F unit hs vs) = Some (map ve vs).
  Proof. intros <-. unfold alloc_header. rewrite Nat.eqb_refl. apply ew_alloc_all. Qed.

  Section P.
    Variables (Fs : Field) (H : FMod F) (cb : F) (hs : nat) (T : TwoAdic F).
    Variable p : proof F Fs H.
    Definition uout_of (u : uvals F) : uout F unit := mk_uout F unit (fun f => vp (uv_pt u f)) (fun f => ve (uv_el u f)).
    (** the emulated instance is the published one, if there is one *)
    Lemma ew_instance : match emulate_wireless (alloc_from_proof F Fs H unit tt cb p) with
                        | Some o => exists u, published p u /\ uout_write F unit o = map ve (u_write u)
                        | None => forall u, ~ published p u
                        end.
    Proof.
      unfold alloc_from_proof. cbv zeta.
      assert (N : forall f, br_commitment (pf_bridge p f) = None -> forall u, ~ published p u) by (intros f E u [Q _]; rewrite Q in E; discriminate).
      repeat (rewrite ew_bind; first [rewrite ew_alloc; cbn [obind]
        | rewrite ew_point; match goal with |- context [option_map vp (br_commitment (pf_bridge p ?f))] =>
            let q := fresh "q" in let E := fresh "E" in destruct (br_commitment (pf_bridge p f)) as [q|] eqn:E; cbn [option_map obind]; [|exact (N f E)] end]).
      cbn [emulate_wireless].
      exists (mk_uvals (fun f => match f with PPreamble => q | PSPrime => q0 | PInnerError => q1 | POuterError => q2 | PAB => q3 | PQuery => q4 | PF => q5 | PEval => q6 end)
        (fun f => match f with Uw => pf_chal p Ch_w | Uy => pf_chal p Ch_y | Uz => pf_chal p Ch_z | Umu => pf_chal p Ch_mu | Unu => pf_chal p Ch_nu
           | Umu' => pf_chal p Ch_mu' | Unu' => pf_chal p Ch_nu' | Uc => pf_c p | Ux => pf_chal p Ch_x | Ualpha => pf_chal p Ch_alpha | Uu => pf_chal p Ch_u
           | Upre_beta => pf_chal p Ch_pre_beta | Uv => pf_v p end)).
      split; [|reflexivity]. split; [intros []; assumption|]. repeat split.
    Qed.

    Lemma published_unique u u' : published p u -> published p u' -> u_write u = u_write u'.
    Proof.
      intros [A B] [A' B'].
      assert (P : forall f, uv_pt u f = uv_pt u' f) by (intros f; specialize (A f); specialize (A' f); congruence).
      assert (E : forall f, uv_el u f = uv_el u' f).
      { decompose [and] B. decompose [and] B'. intros []; congruence. }
      unfold u_write. rewrite !P. cbn [map]. rewrite !E. reflexivity.
    Qed.

    Lemma ew_unified (i : pinputs F unit) us l r y : uout_write F unit (pi_uni F unit i) = map ve us -> pi_left F unit i = map ve l -> pi_right F unit i = map ve r ->
      emulate_wireless (unified_ky_values F unit tt true i (ve y)) = Some (ve (k_of (us ++ [0]) y), ve (k_of (us ++ l ++ r ++ [0]) y)).
    Proof.
      intros E1 E2 E3. unfold unified_ky_values. rewrite ew_bind, E1. change None with (option_map ve None). rewrite ew_writes. cbn [obind].
      rewrite ew_bind, ew_zero. cbn [obind]. rewrite ew_bind, ew_write. cbn [obind]. rewrite ew_bind, ew_finish. cbn [obind].
      rewrite ew_bind, E2, ew_writes. cbn [obind]. rewrite ew_bind, E3, ew_writes. cbn [obind]. rewrite ew_bind, ew_zero. cbn [obind].
      rewrite ew_bind, ew_write. cbn [obind]. rewrite ew_bind, ew_finish. cbn [obind emulate_wireless].
      rewrite <- !k_of_fold, !fold_left_app. reflexivity.
    Qed.
    Lemma ew_application (i : pinputs F unit) l r o y : pi_left F unit i = map ve l -> pi_right F unit i = map ve r -> pi_out F unit i = map ve o ->
      emulate_wireless (application_ky F unit tt true i (ve y)) = Some (ve (k_of (l ++ r ++ o) y)).
    Proof.
      intros E1 E2 E3. unfold application_ky. rewrite ew_bind, E1. change None with (option_map ve None). rewrite ew_writes. cbn [obind].
      rewrite ew_bind, E2, ew_writes. cbn [obind]. rewrite ew_bind, E3, ew_writes. cbn [obind]. rewrite ew_finish.
      rewrite <- k_of_fold, !fold_left_app. reflexivity.
    Qed.

    (** the three expected values, when the header encodes and there is an instance *)
    Lemma ky_some s d u y : length (pf_left_header p) = hs -> length (pf_right_header p) = hs -> length d < hs -> published p u ->
      let k := child_k (shown T p u (padded hs s d)) y in
      emulate_wireless (verify_ky unit tt cb hs T p (Some s) (Some d) y) = Some (ve (ck_unified k), ve (ck_bridge k), ve (ck_application k)).
    Proof.
      intros Hl Hr Hd Hu k. unfold verify_ky, alloc_for_verify, inputs_alloc. rewrite ew_bind, ew_alloc. cbn [obind]. rewrite emulated_ok.
      destruct (Nat.ltb_spec (length d) hs); [|lia]. rewrite ew_bind. rewrite !ew_bind, (ew_header hs _ Hl). cbn [obind].
      rewrite !ew_bind, (ew_header hs _ Hr). cbn [obind]. rewrite !ew_bind, (ew_header hs (padded hs s d)) by (now apply padded_len). cbn [obind].
      rewrite !ew_bind, ew_alloc. cbn [obind]. rewrite !ew_bind. pose proof ew_instance as HI.
      destruct (emulate_wireless (alloc_from_proof F Fs H unit tt cb p)) as [o|]; [|now specialize (HI u Hu)].
      destruct HI as (u' & Hu' & E). rewrite (published_unique u' u Hu' Hu) in E. cbn [obind emulate_wireless].
      rewrite ew_bind. rewrite (ew_unified _ (u_write u) (pf_left_header p) (pf_right_header p)) by (auto; reflexivity). cbn [obind].
      rewrite ew_bind. rewrite (ew_application _ (pf_left_header p) (pf_right_header p) (padded hs s d)) by reflexivity. reflexivity.
    Qed.
    (** and only then *)
    Lemma ky_inv sfx data y k : emulate_wireless (verify_ky unit tt cb hs T p sfx data y) = Some k ->
      length (pf_left_header p) = hs -> length (pf_right_header p) = hs ->
      exists s d u, sfx = Some s /\ data = Some d /\ length d < hs /\ published p u.
    Proof.
      intros E Hl Hr. unfold verify_ky, alloc_for_verify in E. rewrite ew_bind, ew_alloc in E. cbn [obind] in E. rewrite ew_bind in E.
      destruct data as [d|]; [|discriminate]. cbn [obind] in E. destruct sfx as [s|]; [|discriminate]. rewrite emulated_ok in E.
      destruct (Nat.ltb_spec (length d) hs) as [L|L]; [|discriminate]. unfold inputs_alloc in E.
      rewrite !ew_bind, (ew_header hs _ Hl) in E. cbn [obind] in E.
      rewrite !ew_bind, (ew_header hs _ Hr) in E. cbn [obind] in E. rewrite !ew_bind, (ew_header hs (padded hs s d)) in E by (now apply padded_len). cbn [obind] in E.
      rewrite !ew_bind, ew_alloc in E. cbn [obind] in E. rewrite !ew_bind in E. pose proof ew_instance as HI.
      destruct (emulate_wireless (alloc_from_proof F Fs H unit tt cb p)) as [o|]; [|discriminate]. destruct HI as (u & Hu & _).
      exists s, d, u. auto.
    Qed.
  End P.
End Ky.

(** ** the claims *)
Section Claims.
  Variable F : Field.
  Add Field FFvc : (f_theory F).
  Open Scope f_scope.
  Lemma revdots_iff {C : Type} (NC : nat) (fa fb : C -> nat -> F) (cs : list C) l (ky : nat -> F) :
    Forall2 (fun c ab => wf 0 NC (fst ab) /\ wf 0 NC (snd ab) /\ (forall k, coeff_at (fst ab) k = fa c k) /\ (forall k, coeff_at (snd ab) k = fb c k)) cs l ->
    (all_revdot NC (zip_ky ky l) = true <->
     Forall (fun c => fsum NC (fun k => fa (fst c) k * fb (fst c) (NC - 1 - k)%nat) = snd c) (zip_ky ky cs)).
  Proof.
    unfold zip_ky. intros HF. pose proof (forall2_len _ _ _ HF) as L. rewrite <- L. clear L.
    enough (G : forall i, all_revdot NC (combine l (map ky (seq i (length cs)))) = true <->
      Forall (fun c => fsum NC (fun k => fa (fst c) k * fb (fst c) (NC - 1 - k)%nat) = snd c) (combine cs (map ky (seq i (length cs))))) by apply (G 0%nat).
    unfold all_revdot.
    induction HF as [|c ab cs l (Wa & Wb & Ca & Cb) HF IH]; intros i; [split; [constructor|reflexivity]|].
    cbn [length seq map combine forallb fst snd]. rewrite andb_true_iff, IH, feqb_true, (revdot_ok F) by auto.
    rewrite (fsum_ext F NC _ (fun k => fa c k * fb c (NC - 1 - k)%nat)) by (intros k _; now rewrite Ca, Cb).
    split; [intros [A B]; constructor; auto|intros A; inversion A; auto].
  Qed.
  Lemma perm_forall {A : Type} (P : A -> Prop) l l' : Permutation l l' -> Forall P l -> Forall P l'.
  Proof. intros E Hl. rewrite Forall_forall in *. intros x Hx. apply Hl. eapply Permutation_in; [apply Permutation_sym, E|exact Hx]. Qed.
End Claims.

Section NClaims.
  Variable F : Field.
  Add Field FFvn : (f_theory F).
  Open Scope f_scope.
  Local Notation poly := (list (nat * list F)).
  Variables (n steps : nat) (z : F) (cy : nat -> option poly) (sy : nat -> poly).
  Local Notation NC := (4 * n)%nat.
  Hypothesis Hs : (N.of_nat (steps + 11) < 2 ^ 32)%N.
  Hypothesis Hcy : forall i, (i < steps + 11)%nat -> cy i = Some (sy i) /\ wf 0 NC (sy i).

  Lemma position_app {A : Type} (f : A -> bool) l l' : (forall x, In x l -> f x = false) -> position f (l ++ l') = option_map (fun i => (length l + i)%nat) (position f l').
  Proof.
    induction l as [|x l IH]; intros Hf; cbn [app position length].
    - destruct (position f l'); reflexivity.
    - rewrite (Hf x) by (now left). rewrite IH by (intros y Hy; apply Hf; now right). destruct (position f l'); reflexivity.
  Qed.
  Lemma position_step s m : forall a, (s < m)%nat -> position (ncid_eqb (NStep (a + s))) (map NStep (seq a m)) = Some s.
  Proof.
    revert s. induction m as [|m IH]; intros s a Hs'; [lia|]. cbn [seq map position ncid_eqb].
    destruct s as [|s]; [rewrite Nat.add_0_r, Nat.eqb_refl; reflexivity|].
    destruct (Nat.eqb_spec (a + S s) a); [lia|]. replace (a + S s)%nat with (S a + s)%nat by lia. rewrite IH by lia. reflexivity.
  Qed.
  Lemma slot_ok id : In id (ncid_all steps) -> nested_circuit_index steps id = Some (nested_slot steps id) /\ (nested_slot steps id < steps + 11)%nat.
  Proof.
    intros Hid.
    assert (B : (nested_slot steps id < steps + 11)%nat).
    { unfold ncid_all in Hid. apply in_app_or in Hid. destruct Hid as [Hid|Hid].
      - apply in_map_iff in Hid. destruct Hid as (s & <- & Hx). apply in_seq in Hx. cbn [nested_slot]. lia.
      - cbn [In] in Hid. decompose [or] Hid; subst; try contradiction; cbn [nested_slot]; lia. }
    split; [|exact B]. unfold nested_circuit_index.
    assert (E : position (ncid_eqb id) (ncid_all steps) = Some (nested_slot steps id)).
    { unfold ncid_all in *. apply in_app_or in Hid. destruct Hid as [Hid|Hid].
      - apply in_map_iff in Hid. destruct Hid as (s & <- & Hx). apply in_seq in Hx. cbn [nested_slot].
        assert (G : forall l l' : list ncid, forall i, position (ncid_eqb (NStep s)) l = Some i -> position (ncid_eqb (NStep s)) (l ++ l') = Some i).
        { clear. induction l as [|x l IH]; intros l' i E; [discriminate|]. cbn [app position] in *. destruct (ncid_eqb (NStep s) x); [exact E|].
          destruct (position (ncid_eqb (NStep s)) l) as [j|]; [|discriminate]. now rewrite (IH l' j eq_refl). }
        apply G. apply (position_step s steps 0). lia.
      - rewrite position_app.
        + rewrite map_length, seq_length. cbn [In] in Hid. decompose [or] Hid; subst; try contradiction; cbn [position ncid_eqb option_map nested_slot]; f_equal; lia.
        + intros x Hx. apply in_map_iff in Hx. destruct Hx as (s & <- & _). cbn [In] in Hid. decompose [or] Hid; subst; try contradiction; reflexivity. }
    rewrite E. cbn [obind]. unfold circuit_index_new. destruct (N.ltb_spec (N.of_nat (nested_slot steps id)) (2 ^ 32)) as [L|L]; [reflexivity|].
    exfalso. apply (N.lt_irrefl (2 ^ 32)). eapply N.le_lt_trans; [exact L|]. eapply N.lt_trans; [|exact Hs]. lia.
  Qed.

  Definition nclaim_ok (c : nclaim poly) : Prop :=
    match c with NInt id rs | NBond id rs => In id (ncid_all steps) /\ rs <> [] /\ Forall (wf 0 NC) rs end.
  Definition nsome (c : nclaim poly) : nclaim (option poly) :=
    match c with NInt id rs => NInt id (map Some rs) | NBond id rs => NBond id (map Some rs) end.
  Lemma opt_all_some (rs : list poly) : opt_all (fun x => x) (map Some rs) = Some rs.
  Proof. induction rs as [|r rs IH]; [reflexivity|]. cbn [map opt_all]. now rewrite IH. Qed.
  Lemma nb_ok c : nclaim_ok c -> exists a b, nb_claim n NC steps z cy (nsome c) = Some (a, b) /\ wf 0 NC a /\ wf 0 NC b /\
    (forall k, coeff_at a k = na_coeff z c k) /\ (forall k, coeff_at b k = nb_coeff n steps z sy c k).
  Proof.
    destruct c as [id rs|id rs]; intros (Hid & Hne & HF); cbn [nsome nb_claim]; rewrite opt_all_some; cbn [obind];
      destruct (slot_ok id Hid) as [-> Hlt]; cbn [obind]; destruct (Hcy _ Hlt) as [Ec Ws].
    - destruct (sum_polys_ok F n rs Hne HF) as (a & -> & Wa & Ca). cbn [obind]. unfold b_circuit. rewrite Ec.
      destruct (circuit_b_ok F n z a _ Wa Ws) as (b & -> & Wb & Cb). exists a, b. cbn [option_map na_coeff nb_coeff].
      do 3 (split; [auto|]). split; [exact Ca|]. intros k. rewrite Cb, Ca. reflexivity.
    - destruct (fold_bonding_ok F n z rs Hne HF) as (a & -> & Wa & Ca). cbn [obind]. unfold b_bond. rewrite Ec. cbn [option_map].
      exists a, (sy (nested_slot steps id)). cbn [bonding_claim_b na_coeff nb_coeff]. auto.
  Qed.
  Lemma nb_all cs : Forall nclaim_ok cs -> exists l, opt_all (nb_claim n NC steps z cy) (map nsome cs) = Some l /\
    Forall2 (fun c ab => wf 0 NC (fst ab) /\ wf 0 NC (snd ab) /\ (forall k, coeff_at (fst ab) k = na_coeff z c k) /\ (forall k, coeff_at (snd ab) k = nb_coeff n steps z sy c k)) cs l.
  Proof.
    induction 1 as [|c cs Hc Hcs (l & E & H2)]; cbn [opt_all map]; [exists []; auto|].
    destruct (nb_ok c Hc) as (a & b & -> & Wa & Wb & Ca & Cb). rewrite E. cbn [option_map]. exists ((a, b) :: l). split; [reflexivity|]. constructor; auto.
  Qed.
  Lemma nb_inv (cs : list (nclaim (option poly))) l : opt_all (nb_claim n NC steps z cy) cs = Some l ->
    forall id rs, In (NInt id rs) cs -> ~ In None rs.
  Proof.
    revert l. induction cs as [|c cs IH]; intros l E id rs Hin; [destruct Hin|]. cbn [opt_all] in E.
    destruct (nb_claim n NC steps z cy c) as [ab|] eqn:Ec; [|discriminate]. destruct (opt_all _ cs) as [l'|] eqn:El; [|discriminate].
    destruct Hin as [->|Hin]; [|eapply IH; eauto]. cbn [nb_claim] in Ec. destruct (opt_all (fun x => x) rs) as [rs'|] eqn:Er; [|discriminate].
    clear -Er. revert rs' Er. induction rs as [|r rs IH]; intros rs' Er; [auto|]. cbn [opt_all] in Er. destruct r as [r|]; [|discriminate].
    destruct (opt_all (fun x => x) rs) as [t|]; [|discriminate]. intros [X|X]; [discriminate|]. eapply IH; eauto.
  Qed.
End NClaims.

Section Exact.
  Variables (F Fs : Field) (H : FMod F).
  Open Scope f_scope.
  Variables (T : TwoAdic F) (Ts : TwoAdic Fs) (lg : nat) (repr : F -> N) (reprs : Fs -> N).
  Variables (heq : H -> H -> bool) (gens : list H) (cb : F) (hs steps : nat) (native : registry F) (nested : registry Fs).
  Variable p : proof F Fs H.
  Let n := (2 ^ lg)%nat.
  Hypothesis Hheq : forall a b : H, heq a b = true <-> a = b.
  Hypothesis Hgens : (4 * n <= length gens)%nat.
  Hypothesis Hs : (N.of_nat (steps + 11) < 2 ^ 32)%N.
  Hypothesis Wp : wf_proof n p.

  Lemma nested_claims_some : (steps <= length (pf_step_rxs p))%nat ->
    build_nested steps (mk_source (fun c => [nested_rx p c]) (@nil unit)) = map (nsome Fs) (build_nested steps (nsource_of [nested_poly p] (@nil unit))).
  Proof.
    intros L. change (mk_source (fun c => [nested_rx p c]) (@nil unit)) with (nsource_of [nested_rx p] (@nil unit)). rewrite !build_nested_of, map_app.
    assert (N : forall s, In s (seq 0 steps) -> nested_rx p (NrStep s) = Some (nested_poly p (NrStep s))).
    { intros s Hx. apply in_seq in Hx. cbn [nested_rx nested_poly]. apply nth_error_nth'. lia. }
    f_equal.
    - revert N. generalize (seq 0 steps). induction l as [|s l IH]; intros N; [reflexivity|]. cbn [flat_map]. rewrite map_app, <- IH by (intros; apply N; now right).
      cbn [map nsome]. rewrite (N s) by (now left). reflexivity.
    - unfold nested_bond. cbn [map fst nsome nested_rx nested_poly flat_map app].
      assert (E : flat_map (fun s => [nth_error (pf_step_rxs p) s]) (seq 0 steps) = map Some (flat_map (fun s => [nth s (pf_step_rxs p) []]) (seq 0 steps))).
      { revert N. generalize (seq 0 steps). induction l as [|s l IH]; intros N; [reflexivity|]. cbn [flat_map map app]. rewrite <- IH by (intros; apply N; now right).
        f_equal. apply (N s). now left. }
      now rewrite E.
  Qed.
  Lemma nested_claims_ok : (0 < steps)%nat -> Forall (nclaim_ok Fs n steps) (build_nested steps (nsource_of [nested_poly p] (@nil unit))).
  Proof.
    intros H0. destruct Wp as (_ & Wn & _). rewrite build_nested_of. apply Forall_app. split.
    - apply Forall_forall. intros c Hc. apply in_flat_map in Hc. destruct Hc as (s & Hx & [<-|[]]). cbn [nclaim_ok]. split; [|split; [discriminate|repeat constructor; apply Wn]].
      unfold ncid_all. apply in_or_app. left. now apply in_map.
    - unfold nested_bond. cbn [map fst].
      assert (I : forall id, In id [NEndoscalar; NPoints; NPointsFinal; NBridgePreamble; NBridgeSPrime; NBridgeInnerError; NBridgeOuterError; NBridgeAB; NBridgeQuery; NBridgeF; NBridgeEval] -> In id (ncid_all steps))
        by (intros id X; unfold ncid_all; apply in_or_app; now right).
      repeat (apply Forall_cons; [cbn [nclaim_ok]; split; [apply I; cbn [In]; tauto|]|]); [..|apply Forall_nil].
      all: try (split; [discriminate|repeat constructor; apply Wn]).
      cbn [flat_map app]. split.
      + destruct steps; [lia|]. discriminate.
      + repeat (apply Forall_cons; [apply Wn|]). apply Forall_forall. intros q Hq. apply in_flat_map in Hq. destruct Hq as (s & _ & [<-|[]]). apply Wn.
  Qed.

  Variables (w y z : F) (y' z' : Fs) (sy : nat -> poly F) (sy' : nat -> poly Fs) (mwxy : F).
  Hypothesis Hint : forall i, (i < 13)%nat -> circuit_y F T lg repr native (N.of_nat i) y = Some (sy i) /\ wf 0 (4 * n) (sy i).
  Hypothesis Happ : circuit_in_domain F T native (pf_circuit_id p) = true ->
    circuit_y F T lg repr native (pf_circuit_id p) y = Some (sy (N.to_nat (pf_circuit_id p))) /\ wf 0 (4 * n) (sy (N.to_nat (pf_circuit_id p))).
  Hypothesis Hnint : forall i, (i < steps + 11)%nat -> circuit_y Fs Ts lg reprs nested (N.of_nat i) y' = Some (sy' i) /\ wf 0 (4 * n) (sy' i).
  Hypothesis Hw : reg_wxy F lg repr native w (pf_chal p Ch_x) (pf_chal p Ch_y) = Some mwxy.
  Hypothesis Hst : (0 < steps)%nat.

  Lemma exact_ok sfx data : verify T Ts lg repr reprs heq gens cb hs steps native nested p sfx data w y z y' z' = Some true <->
    circuit_in_domain F T native (pf_circuit_id p) = true /\
    exists s d u, sfx = Some s /\ data = Some d /\ verified T n hs steps gens sy sy' mwxy p s d u w y z z'.
  Proof.
    unfold verify. cbv zeta. destruct (circuit_in_domain F T native (pf_circuit_id p)) eqn:ED; cbn [negb]; [|split; [discriminate|intros [X _]; discriminate]].
    destruct (Nat.eqb_spec (length (pf_left_header p)) hs) as [Hl|Hl]; cbn [negb orb];
      [|split; [discriminate|intros (_ & s & d & u & _ & _ & V); destruct V; contradiction]].
    destruct (Nat.eqb_spec (length (pf_right_header p)) hs) as [Hr|Hr]; cbn [negb orb];
      [|split; [discriminate|intros (_ & s & d & u & _ & _ & V); destruct V; contradiction]].
    (* the expected values *)
    destruct (emulate_wireless (verify_ky unit tt cb hs T p sfx data y)) as [kv|] eqn:EK; cbn [obind].
    2:{ split; [discriminate|]. intros (_ & s & d & u & -> & -> & V). pose proof (vf_data _ _ _ _ _ _ _ _ _ _ _ _ _ _ _ _ _ _ _ V) as Ld. pose proof (vf_published _ _ _ _ _ _ _ _ _ _ _ _ _ _ _ _ _ _ _ V) as Pu.
        rewrite (ky_some F Fs H cb hs T p s d u y Hl Hr Ld Pu) in EK. discriminate. }
    destruct (ky_inv F Fs H cb hs T p sfx data y kv EK Hl Hr) as (s & d & u & -> & -> & Ld & Pu).
    rewrite (ky_some F Fs H cb hs T p s d u y Hl Hr Ld Pu) in EK. injection EK as <-. cbn [fst snd ev ve].
    set (k := child_k (shown T p u (padded hs s d)) y).
    (* native claims *)
    set (v := view_of p k). destruct Wp as (Wr & Wn & Wx & Wpp).
    destruct (b_all_ok F n z (fun i => circuit_y F T lg repr native (N.of_nat i) y) sy Hint (build_claims (source_of [v]))) as (ab & Eab & Hab).
    { apply build_all; [discriminate|]. intros x [<-|[]]. split; [exact Wr|]. unfold reg_ok, v, view_of. cbn [pv_app]. rewrite N2Nat.id. apply (Happ eq_refl). }
    change (one_source (native_rx p) (N.to_nat (pf_circuit_id p))) with (source_of [v]).
    unfold b_build. change (rk_nc lg) with (4 * n)%nat. change (rk_n lg) with n. rewrite Eab. cbn [obind].
    change (one_ky 0 (pf_c p) {| ck_application := ck_application k; ck_unified := ck_unified k; ck_bridge := ck_bridge k |})
      with (one_ky 0 (pf_c p) (mk_child_ky (ck_application k) (ck_unified k) (ck_bridge k))).
    (* nested claims *)
    destruct (opt_all (nb_claim n (4 * n) steps z' (fun i => circuit_y Fs Ts lg reprs nested (N.of_nat i) y')) (build_nested steps (mk_source (fun c => [nested_rx p c]) (@nil unit)))) as [nab|] eqn:EN.
    2:{ unfold nb_build. rewrite EN. cbn [obind]. split; [discriminate|]. intros (_ & s' & d' & u' & _ & _ & V). pose proof (vf_steps _ _ _ _ _ _ _ _ _ _ _ _ _ _ _ _ _ _ _ V) as Ls.
        rewrite (nested_claims_some Ls) in EN.
        destruct (nb_all Fs n steps z' (fun i => circuit_y Fs Ts lg reprs nested (N.of_nat i) y') sy' Hs Hnint _ (nested_claims_ok Hst)) as (l & E & _).
        rewrite E in EN. discriminate. }
    assert (Ls : (steps <= length (pf_step_rxs p))%nat).
    { destruct (Nat.le_gt_cases steps (length (pf_step_rxs p))) as [X|X]; [exact X|]. exfalso.
      refine (nb_inv Fs n steps z' _ _ nab EN (NStep (length (pf_step_rxs p))) [nested_rx p (NrStep (length (pf_step_rxs p))); nested_rx p NrEndoscalar; nested_rx p NrPoints] _ _).
      - change (mk_source (fun c => [nested_rx p c]) (@nil unit)) with (nsource_of [nested_rx p] (@nil unit)). rewrite build_nested_of. apply in_or_app. left.
        apply in_flat_map. exists (length (pf_step_rxs p)). split; [apply in_seq; lia|]. now left.
      - left. cbn [nested_rx]. apply nth_error_None. lia. }
    rewrite (nested_claims_some Ls) in EN.
    destruct (nb_all Fs n steps z' (fun i => circuit_y Fs Ts lg reprs nested (N.of_nat i) y') sy' Hs Hnint _ (nested_claims_ok Hst)) as (nab' & EN' & Hnab).
    rewrite EN in EN'. injection EN' as <-.
    unfold nb_build. rewrite (nested_claims_some Ls), EN. cbn [obind].
    rewrite (commit_ok F (4 * n) H gens (pf_p p) Wpp Hgens). cbn [obind]. rewrite Hw. cbn [obind].
    pose proof (revdots_iff F (4 * n) (a_coeff z) (b_coeff n z sy) (build_claims (source_of [v])) ab
      (ky_values (one_ky 0 (pf_c p) (mk_child_ky (ck_application k) (ck_unified k) (ck_bridge k)))) Hab) as RN.
    pose proof (revdots_iff Fs (4 * n) (na_coeff z') (nb_coeff n steps z' sy') (build_nested steps (nsource_of [nested_poly p] (@nil unit))) nab (nested_ky steps f1 f0) Hnab) as RB.
    rewrite nested_zip in RB.
    assert (PN : Permutation (zip_ky (ky_values (one_ky 0 (pf_c p) (mk_child_ky (ck_application k) (ck_unified k) (ck_bridge k)))) (build_claims (source_of [v]))) (own_claims v ++ bond_claims 0 [v])).
    { exact (native_perm 0 [v]). }
    split.
    - intros E. injection E as E. rewrite !andb_true_iff in E. destruct E as ((((E1 & E2) & E3) & E4) & E5).
      split; [reflexivity|]. exists s, d, u. split; [reflexivity|]. split; [reflexivity|].
      constructor; auto.
      + fold k. fold v. cbv zeta. eapply perm_forall; [exact PN|]. apply RN, E1.
      + apply RB, E2.
      + apply feqb_true in E3. rewrite eval_ok in E3 by exact Wpp. exact E3.
      + now apply Hheq.
      + apply feqb_true in E5. rewrite eval_ok in E5 by exact Wx. exact E5.
    - intros (_ & s' & d' & u' & Es & Ed & V). injection Es as <-. injection Ed as <-. destruct V as [_ _ _ Pu' V1 _ V2 V3 V4 V5].
      f_equal. rewrite !andb_true_iff. repeat split.
      + apply RN. eapply perm_forall; [apply Permutation_sym, PN|]. unfold v, k. cbv zeta in V1.
        assert (EK : child_k (shown T p u' (padded hs s d)) y = child_k (shown T p u (padded hs s d)) y).
        { unfold child_k, shown. cbn [pv_uni pv_left pv_right pv_out]. now rewrite (published_unique F Fs H p u' u Pu' Pu). }
        rewrite EK in V1. exact V1.
      + apply RB, V2.
      + apply feqb_true. rewrite eval_ok by exact Wpp. exact V3.
      + now apply Hheq.
      + apply feqb_true. rewrite eval_ok by exact Wx. exact V5.
  Qed.
End Exact.
