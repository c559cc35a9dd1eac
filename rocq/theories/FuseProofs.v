(** The prover's step: the values its emulated code computes. *)
From Coq Require Import List Arith NArith Bool Lia Ring Field.
From Verif Require Import FieldDef ModDef ArithModel ArithSpec FFTModel SparseModel SparseSpec SparseProofs GadgetModel GadgetSpec GadgetProofs TxzProofs EndoSpec EndoProofs FoldModel FoldSpec FoldProofs2
  SpongeModel SpongeSpec ClaimModel CircModel SyModel TraceModel RegModel AppModel PcdModel PcdSpec RecModel RecSpec RecStageModel RecStageSpec RecProofs3 RecProofs5 EmuModel VerifyModel VerifySpec VerifyProofs FuseModel FuseSpec.
Import ListNotations.
Local Open Scope nat_scope.

Section Emu.
  Variable F : Field.
  Add Field FFu1 : (f_theory F).
  Open Scope f_scope.
  Local Notation ve := (ve F).

  (** ** wired *)
  Lemma em_bind {A B : Type} (p : G F F A) (k : A -> G F F B) :
    emulate_wired (gbind p k) = obind (emulate_wired p) (fun a => emulate_wired (k a)).
  Proof. induction p as [a| |w k' IH|v k' IH|lc k' IH|lc k' IH]; cbn [gbind emulate_wired obind]; auto; [destruct w as [[[[? ?] ?] ?]|]|destruct v]; auto. Qed.
  Lemma em_alloc v : emulate_wired (e_alloc F F (Some v)) = Some (hon v).
  Proof. reflexivity. Qed.
  Lemma em_point cb (q : option (F * F)) : emulate_wired (p_alloc F F 1 cb (Some q)) = option_map (fun q => mk_point F F (hon (fst q)) (hon (snd q))) q.
  Proof. destruct q as [[x y]|]; reflexivity. Qed.
  Lemma em_alloc_all (vs : list F) : emulate_wired (alloc_all F F (map Some vs)) = Some (map hon vs).
  Proof. induction vs as [|v vs IH]; [reflexivity|]. cbn [map alloc_all]. rewrite em_bind, em_alloc. cbn [obind]. rewrite em_bind, IH. reflexivity. Qed.
  Lemma em_header hs (vs : list F) : length vs = hs -> emulate_wired (alloc_header F F hs vs) = Some (map hon vs).
  Proof. intros <-. unfold alloc_header. rewrite Nat.eqb_refl. apply em_alloc_all. Qed.

  Section P.
    Variables (Fs : Field) (H : FMod F) (cb : F) (hs : nat) (T : TwoAdic F).
    Lemma em_inputs (p : proof F Fs H) u out : length (pf_left_header p) = hs -> length (pf_right_header p) = hs -> length out = hs -> published p u ->
      option_map (fun i => map (ew F F) (pin_elems F F i)) (emulate_wired (inputs_alloc F Fs H F 1 cb hs T p out)) = Some (pv_write (shown T p u out)).
    Proof.
      intros L1 L2 L3 [Q E]. unfold inputs_alloc. rewrite em_bind, (em_header hs _ L1). cbn [obind]. rewrite em_bind, (em_header hs _ L2). cbn [obind].
      rewrite em_bind, (em_header hs _ L3). cbn [obind]. rewrite em_bind, em_alloc. cbn [obind]. rewrite em_bind.
      unfold alloc_from_proof. cbv zeta.
      repeat (rewrite em_bind; first [rewrite em_alloc; cbn [obind] | rewrite em_point, Q; cbn [option_map obind]]).
      cbn [emulate_wired obind option_map]. f_equal. unfold pin_elems, pv_write, uout_write, u_write, uall. cbn [shown pv_left pv_right pv_out pv_cid pv_uni pi_left pi_right pi_out pi_cid pi_uni].
      assert (Hm : forall l : list F, map (ew F F) (map hon l) = l) by (intros; rewrite map_map; apply map_id).
      rewrite !map_app, !Hm. repeat f_equal. cbn. decompose [and] E. congruence.
    Qed.
    Lemma ew_inputs (p : proof F Fs H) u out : length (pf_left_header p) = hs -> length (pf_right_header p) = hs -> length out = hs -> published p u ->
      exists i, emulate_wireless (inputs_alloc F Fs H unit tt cb hs T p out) = Some i /\
        pi_left F unit i = map ve (pf_left_header p) /\ pi_right F unit i = map ve (pf_right_header p) /\ pi_out F unit i = map ve out /\
        uout_write F unit (pi_uni F unit i) = map ve (u_write u) /\ uo_el F unit (pi_uni F unit i) Uc = ve (uv_el u Uc).
    Proof.
      intros L1 L2 L3 [Q E]. unfold inputs_alloc. rewrite ew_bind, (ew_header F hs _ L1). cbn [obind]. rewrite ew_bind, (ew_header F hs _ L2). cbn [obind].
      rewrite ew_bind, (ew_header F hs _ L3). cbn [obind]. rewrite ew_bind, ew_alloc. cbn [obind]. rewrite ew_bind.
      unfold alloc_from_proof. cbv zeta.
      repeat (rewrite ew_bind; first [rewrite ew_alloc; cbn [obind] | rewrite ew_point, Q; cbn [option_map obind]]).
      cbn [emulate_wireless obind]. eexists. split; [reflexivity|]. cbn [pi_left pi_right pi_out pi_uni]. repeat (split; [reflexivity|]).
      decompose [and] E. split; [|cbn [uo_el]; congruence]. unfold uout_write, u_write, uall. cbn. repeat f_equal; congruence.
    Qed.

    (** ** the folder *)
    Lemma ew_hz x acc v : emulate_wireless (hz_write (ve x) (option_map ve acc) (ve v)) = Some (option_map ve (Some (hzv x acc v))).
    Proof. destruct acc; reflexivity. Qed.
    Lemma ew_hfinish acc : emulate_wireless (hz_finish tt true (option_map ve acc)) = Some (ve (orz acc)).
    Proof. destruct acc; reflexivity. Qed.
    Lemma ew_row (mn : F) i : forall js errs kys acc,
      emulate_wireless (fp_row (ve mn) i js (map ve errs) (map ve kys) (option_map ve acc)) =
      option_map (fun x => (option_map ve (hzs mn (fst x) acc), (map ve (fst (snd x)), map ve (snd (snd x))))) (consume F i js errs kys).
    Proof.
      induction js as [|j js IH]; intros errs kys acc; cbn [fp_row consume]; [reflexivity|].
      destruct (i =? j)%nat; [destruct kys as [|t k']|destruct errs as [|t k']]; cbn [map]; try reflexivity; rewrite ew_bind, ew_hz; cbn [obind]; rewrite IH;
        match goal with |- context [consume F i js ?a ?b] => destruct (consume F i js a b) as [[ts [e2 k2]]|] end; reflexivity.
    Qed.
    Lemma ew_rows (mn mi : F) n : forall is errs kys acc,
      emulate_wireless (fp_rows tt true (mk_cfolder (ve mn) (ve mi)) n is (map ve errs) (map ve kys) (option_map ve acc)) =
      option_map (fun vs => option_map ve (hzs mi vs acc)) (consume_rows F mn n is errs kys).
    Proof.
      induction is as [|i is IH]; intros errs kys acc; cbn [fp_rows consume_rows cf_mu_nu cf_mu_inv]; [reflexivity|].
      rewrite ew_bind. change (@None (elem F unit)) with (option_map ve (@None F)). rewrite ew_row.
      destruct (consume F i (seq 0 n) errs kys) as [[ts [e2 k2]]|]; [|reflexivity]. cbn [option_map obind fst snd].
      rewrite ew_bind, ew_hfinish. cbn [obind]. rewrite ew_bind, ew_hz. cbn [obind]. rewrite IH.
      destruct (consume_rows F mn n is e2 k2); reflexivity.
    Qed.
    Lemma ew_products n (mn mi : F) errs ky : length errs = num_error_terms n -> length ky = n ->
      emulate_wireless (fold_products tt true n (mk_cfolder (ve mn) (ve mi)) (map ve errs) (map ve ky)) = Some (ve (weigh n mi mn (entry n errs ky))).
    Proof.
      intros He Hk. unfold fold_products. rewrite ew_bind. change (@None (elem F unit)) with (option_map ve (@None F)).
      rewrite ew_rows, rows_entry by assumption. cbn [option_map obind]. rewrite ew_hfinish, rows_weigh. reflexivity.
    Qed.
    Lemma ew_cf (mu nu : F) : mu <> 0 -> emulate_wireless (cf_new tt (ve mu) (ve nu)) = Some (mk_cfolder (ve (mu * nu)) (ve (finv mu))).
    Proof.
      intros Hm. unfold cf_new, e_invert. cbn. unfold inv_opt. destruct (feqb mu 0) eqn:E; [apply feqb_true in E; contradiction|]. cbn. reflexivity.
    Qed.
    Lemma ew_groups (M : nat) (mn mi : F) (kye : nat -> elem F unit) (ky : nat -> F) : (forall k, kye k = ve (ky k)) ->
      forall errs i, Forall (fun e => length e = num_error_terms M) errs ->
      emulate_wireless (oe_groups F M unit tt (mk_cfolder (ve mn) (ve mi)) kye i errs) =
      Some (map ve (map (fun j => weigh M mi mn (entry M (nth j errs []) (map ky (seq ((i + j) * M) M)))) (seq 0 (length errs)))).
    Proof.
      intros Hk. induction errs as [|e errs IH]; intros i Hf; [reflexivity|]. inversion Hf; subst. cbn [oe_groups].
      rewrite ew_bind, ew_alloc_all. cbn [obind]. rewrite ew_bind.
      replace (map kye (seq (i * M) M)) with (map ve (map ky (seq (i * M) M))) by (rewrite map_map; apply map_ext; intros; symmetry; apply Hk).
      rewrite ew_products by (auto; now rewrite map_length, seq_length). cbn [obind]. rewrite ew_bind, IH by assumption. cbn [obind emulate_wireless].
      cbn [length seq map nth]. rewrite Nat.add_0_r. f_equal. f_equal. rewrite <- seq_shift, !map_map. apply map_ext. intros j.
      now replace (i + S j)%nat with (S i + j)%nat by lia.
    Qed.
    Lemma two_ky_ve (cl cr : F) kl kr k :
      ky_values (two_ky (ve 0) (ve cl) (ve cr) (mk_child_ky (ve (ck_application kl)) (ve (ck_unified kl)) (ve (ck_bridge kl)))
                        (mk_child_ky (ve (ck_application kr)) (ve (ck_unified kr)) (ve (ck_bridge kr)))) k
      = ve (ky_values (two_ky 0 cl cr kl kr) k).
    Proof. unfold ky_values, two_ky. cbn. do 25 (destruct k as [|k]; [reflexivity|]). try reflexivity. Qed.
    Lemma opt_ve (vs : list F) : opt_all (ev F unit) (map ve vs) = Some vs.
    Proof. induction vs as [|v vs IH]; [reflexivity|]. cbn [map opt_all]. cbn [ev]. rewrite IH. reflexivity. Qed.

    Variables (lp rp : proof F Fs H) (ul ur : uvals F) (ol or : list F).
    Hypotheses (Ll : length (pf_left_header lp) = hs) (Lr : length (pf_right_header lp) = hs) (Lo : length ol = hs)
               (Rl : length (pf_left_header rp) = hs) (Rr : length (pf_right_header rp) = hs) (Ro : length or = hs)
               (Pl : published lp ul) (Pr : published rp ur).
    Local Notation l := (shown T lp ul ol).
    Local Notation r := (shown T rp ur or).
    Lemma preamble_values_ok : preamble_values F Fs H T cb hs lp rp ol or = Some (pre_write l r).
    Proof.
      unfold preamble_values, preamble_witness. rewrite em_bind. pose proof (em_inputs lp ul ol Ll Lr Lo Pl) as A.
      pose proof (em_inputs rp ur or Rl Rr Ro Pr) as B.
      destruct (emulate_wired (inputs_alloc F Fs H F 1 cb hs T lp ol)) as [a|]; [|discriminate]. cbn [obind]. rewrite em_bind.
      destruct (emulate_wired (inputs_alloc F Fs H F 1 cb hs T rp or)) as [b|]; [|discriminate]. cbn [option_map obind emulate_wired] in *.
      unfold preamble_elems. cbn [pr_left pr_right]. rewrite map_app. f_equal. unfold pre_write. congruence.
    Qed.
    Lemma outer_emulated_ok M (y mu nu : F) errs : mu <> 0 -> Forall (fun e => length e = num_error_terms M) errs ->
      outer_emulated F Fs H T cb hs M lp rp ol or y mu nu errs =
      Some (child_k l y, child_k r y,
            map (fun i => weigh M (finv mu) (mu * nu) (entry M (nth i errs []) (map (ky_values (two_ky 0 (uv_el ul Uc) (uv_el ur Uc) (child_k l y) (child_k r y))) (seq (i * M) M))))
                (seq 0 (length errs))).
    Proof.
      intros Hm He. unfold outer_emulated, oe_emulated, preamble_witness. rewrite !ew_bind.
      destruct (ew_inputs lp ul ol Ll Lr Lo Pl) as (a & Ea & A1 & A2 & A3 & A4 & A5). rewrite Ea. cbn [obind]. rewrite ew_bind.
      destruct (ew_inputs rp ur or Rl Rr Ro Pr) as (b & Eb & B1 & B2 & B3 & B4 & B5). rewrite Eb. cbn [obind emulate_wireless].
      rewrite ew_bind, ew_alloc. cbn [obind pr_left pr_right]. rewrite ew_bind, (ew_unified F _ _ _ _ _ A4 A1 A2). cbn [obind].
      rewrite ew_bind, (ew_unified F _ _ _ _ _ B4 B1 B2). cbn [obind]. rewrite ew_bind, (ew_application F _ _ _ _ _ A1 A2 A3). cbn [obind].
      rewrite ew_bind, (ew_application F _ _ _ _ _ B1 B2 B3). cbn [obind]. rewrite ew_bind, ew_alloc. cbn [obind]. rewrite ew_bind, ew_alloc. cbn [obind].
      rewrite ew_bind, ew_zero. cbn [obind]. rewrite ew_bind, (ew_cf mu nu Hm). cbn [obind]. rewrite ew_bind. cbn [fst snd]. rewrite A5, B5.
      erewrite ew_groups; [|intros k; exact (two_ky_ve _ _ (child_k l y) (child_k r y) k)|exact He]. cbn [obind emulate_wireless fst snd].
      rewrite opt_ve. cbn [ky_taken ev ck_application ck_unified ck_bridge VerifyProofs.ve obind option_map]. cbn [Nat.add]. reflexivity.
    Qed.
  End P.
End Emu.

(** ** the endoscalar *)
Section Extract.
  Variable F : Field.
  Add Field FFu2 : (f_theory F).
  Open Scope f_scope.
  Variables (gen : F) (fsqrt : F -> option F) (zeta : F) (nbits : nat).
  Lemma ew_extract_go : (forall v s, fsqrt v = Some s -> s * s = v) -> (forall v, fsqrt v = None -> ~ square v) -> (forall v, square v \/ square (gen * v)) ->
    forall n a bits value s0 c0 c1, exists bits', emulate_wireless (en_extract_go F unit tt gen fsqrt (seq s0 n) (ve F a) bits (Some value) (fnat s0) c0 c1) =
      Some (mk_endo unit bits' (Some (fold_left (fun v i => if is_sq F fsqrt (a + fnat i) then N.setbit v (N.of_nat i) else v) (seq s0 n) value))).
  Proof.
    intros SS SN GO. induction n as [|n IH]; intros a bits value s0 c0 c1; cbn [seq en_extract_go fold_left]; [eexists; reflexivity|].
    assert (V : exists sq, extract_wit F gen fsqrt (fnat s0) a = Some (sq, is_sq F fsqrt (a + fnat s0))).
    { unfold extract_wit, is_sq. destruct (fsqrt (a + fnat s0)) as [u|] eqn:Q; [eauto|].
      destruct (fsqrt ((a + fnat s0) * gen)) as [u|] eqn:Q2; [eauto|].
      exfalso. destruct (GO (a + fnat s0)) as [H|H]; [exact (SN _ Q H)|]. apply (SN _ Q2). destruct H as (w & H). exists w. rewrite H. ring. }
    destruct V as (sq & V). cbn [ve ev try_just]. rewrite V. cbn [gbind lift1 lift2 option_map fst snd].
    rewrite ew_bind. unfold b_alloc at 1. cbn [emulate_wireless gbind obind].
    change (fadd (fnat s0) 1) with (fnat (S s0) : F).
    destruct (IH a (bits ++ [tt]) (if is_sq F fsqrt (a + fnat s0) then N.setbit value (N.of_nat s0) else value) (S s0) (c0 + gen) (c1 + (1 - gen))) as (bits' & E).
    exists bits'. rewrite <- E.
    reflexivity.
  Qed.
  Lemma extract_ok : Nat.even nbits = true ->
    (forall v s, fsqrt v = Some s -> s * s = v) -> (forall v, fsqrt v = None -> ~ square v) -> (forall v, square v \/ square (gen * v)) ->
    forall a, exists v, extract_endoscalar F nbits gen fsqrt a = Some v /\ (v < 2 ^ N.of_nat nbits)%N /\
      is_beta true nbits gen zeta a (lift_native F zeta nbits v).
  Proof.
    intros Ev SS SN GO a. unfold extract_endoscalar. rewrite ew_bind, ew_alloc. cbn [obind]. unfold en_extract.
    destruct (ew_extract_go SS SN GO nbits a [] 0%N 0 0 0) as (bits' & E). change (fnat 0) with (0 : F) in E. rewrite E. cbn [obind en_value].
    destruct (fold_setbit (fun i => is_sq F fsqrt (a + fnat i)) 0 0%N ltac:(cbn; lia) nbits) as (w & Ew & B & _ & M). rewrite Ew.
    exists w. split; [reflexivity|]. split; [exact B|]. exists (map (nbit w) (seq 0 nbits)). split; [now rewrite map_length, seq_length|]. split.
    - intros i Hi. rewrite nth_indep with (d' := nbit w 0) by (now rewrite map_length, seq_length). rewrite map_nth, seq_nth by exact Hi. cbn [Nat.add].
      rewrite M by lia. unfold is_sq. split.
      + destruct (fsqrt (a + fnat i)) as [u|] eqn:Q; [|discriminate]. intros _. exists u. auto.
      + intros S. destruct (fsqrt (a + fnat i)) as [u|] eqn:Q; auto. exfalso. exact (SN _ Q S).
    - rewrite lift_native_sum, <- lift_bits_lift_sum. do 3 f_equal.
      apply Nat.even_spec in Ev. destruct Ev as (k & ->). rewrite (Nat.mul_comm 2 k), Nat.div_mul by lia. lia.
  Qed.
End Extract.
