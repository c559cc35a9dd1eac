(** The recursion circuits: the collapse circuits and compute_v. *)
From Coq Require Import List Arith NArith Bool Lia Ring Field.
From Verif Require Import FieldDef ArithModel GadgetModel GadgetSpec GadgetProofs Runs PointSpec PointProofs EndoSpec EndoProofs TxzProofs TProofs
  SpongeModel SpongeSpec SpongeProofs FoldModel FoldSpec FoldProofs2 PcdModel PcdSpec PcdProofs2 RecModel RecSpec RecProofs RecProofs2 RecProofs3.
Import ListNotations.
Open Scope f_scope.
Local Open Scope nat_scope.

Ltac fread H v := let x := fresh "x" in let Hx := fresh "Hx" in fb H x Hx; apply read_el_w in Hx; [|reflexivity|reflexivity];
  destruct Hx as (v & ->); cbv beta iota zeta in H.
Ltac frecve H v := let x := fresh "x" in let Hx := fresh "Hx" in fb H x Hx; apply receive_el_w in Hx; [|reflexivity|reflexivity];
  destruct Hx as (v & ->); cbv beta iota zeta in H.
Ltac bread := eapply okx_bind; [eapply read_el_ok; [reflexivity|reflexivity]|]; cbv beta iota zeta.
Ltac brecve := eapply okx_bind; [eapply receive_el_ok; [reflexivity|reflexivity]|]; cbv beta iota zeta.
Ltac bfin HC := eapply finish_ok; [reflexivity|intros [[]|[]]; cbn; auto|intros [[]|[]]; reflexivity|exact HC].

Section Collapse.
  Variable F : Field.
  Open Scope f_scope.
  Variables (cb : F) (M : nat).
  Lemma ky_el wit (l r : pvals F) (oe : ovals F) j :
    ky_values (two_ky (el wit 0) (uo_el F F (pi_uni F F (pin_of wit l)) Uc) (uo_el F F (pi_uni F F (pin_of wit r)) Uc)
                      (cky_of wit (ov_left oe)) (cky_of wit (ov_right oe))) j
    = el wit (ky_of l r oe j).
  Proof. unfold ky_of, ky_values. cbn [two_ky k_zero]. rewrite <- (map_nth (el wit)). reflexivity. Qed.
  Lemma inner_fwd (l r : pvals F) (oe : ovals F) (ie : list (list F)) res :
    Forall (fun x => length x = num_error_terms M) ie -> (length ie <= length (ov_collapsed oe))%nat ->
    holds (inner_collapse F F 1 false cb M (pre_of false l r) (oe_of false oe) (map (map (el false)) ie) None) res ->
    exists u, pts_on cb u /\ inner_collapse_rel M l r oe ie u /\ res = (map (el false) (u_write u ++ [0]), None).
  Proof.
    intros W L H. unfold inner_collapse in H. cbn [pre_of pr_left pr_right oe_of oe_left oe_right oe_collapsed] in H.
    fread H mu. fread H nu. fcond (dd_cf F false mu nu) H C1. fplain (dz F false) H.
    fcond (dd_groups F false M (mu * nu) (finv mu) (ky_of l r oe) _ (ov_collapsed oe) (ky_el false l r oe) ie 0 W L) H C2.
    apply finish_fwd in H; [|reflexivity|slots]. destruct H as (u & A & ->). agr A (FE Umu). agr A (FE Unu).
    exists u. split; [|split; [|reflexivity]].
    - intros p. exact (A (FP p)).
    - split; assumption.
  Qed.
  Lemma inner_bwd wit (l r : pvals F) (oe : ovals F) (ie : list (list F)) u cov :
    Forall (fun x => length x = num_error_terms M) ie -> (length ie <= length (ov_collapsed oe))%nat ->
    pts_on cb u -> inner_collapse_rel M l r oe ie u ->
    okx F wit (inner_collapse F F 1 wit cb M (pre_of wit l r) (oe_of wit oe) (map (map (el wit)) ie) (inst_of wit u cov))
        (covered wit (u_write u ++ [0]) cov []).
  Proof.
    intros W L O (C1 & C2). unfold inner_collapse. cbn [pre_of pr_left pr_right oe_of oe_left oe_right oe_collapsed].
    bread. bread. bcond (dd_cf F wit (uv_el u Umu) (uv_el u Unu)) C1. bcond (dz F wit) I.
    bcond (dd_groups F wit M (uv_el u Umu * uv_el u Unu) (finv (uv_el u Umu)) (ky_of l r oe) _ (ov_collapsed oe) (ky_el wit l r oe) ie 0 W L) C2.
    eapply finish_ok; [reflexivity| |intros [[]|[]]; reflexivity|intros f []].
    intros [p|[]]; cbn; auto.
  Qed.
  Lemma base_feqb (l r : pvals F) : (feqb (last (pv_out l) 0) 1 && feqb (last (pv_out r) 0) 1)%bool = true <-> is_base l r.
  Proof. unfold is_base. rewrite andb_true_iff, !feqb_true. reflexivity. Qed.
  Lemma outer_fwd N (l r : pvals F) (oe : ovals F) res :
    pv_out l <> [] -> pv_out r <> [] -> length (ov_errs oe) = num_error_terms N -> length (ov_collapsed oe) = N ->
    holds (outer_collapse F F 1 false cb N (pre_of false l r) (oe_of false oe) None) res ->
    exists u, pts_on cb u /\ outer_collapse_rel N l r oe u /\ res = (map (el false) (u_write u ++ [0]), None).
  Proof.
    intros Nl Nr Le Lc H. unfold outer_collapse in H. cbn [oe_of oe_errs oe_collapsed] in H.
    fread H mu. fread H nu. fcond (dd_cf F false mu nu) H C1.
    fplain (dd_fold F false N (mu * nu) (finv mu) (ov_errs oe) (ov_collapsed oe) Le Lc) H.
    frecve H c. fplain (dd_is_base F false l r Nl Nr) H.
    fplain (dd_not F false (feqb (last (pv_out l) 0) 1 && feqb (last (pv_out r) 0) 1)) H.
    fcond (dd_cond F false (negb (feqb (last (pv_out l) 0) 1 && feqb (last (pv_out r) 0) 1)) c
             (weigh N (finv mu) (mu * nu) (entry N (ov_errs oe) (ov_collapsed oe)))) H C2.
    apply finish_fwd in H; [|reflexivity|slots]. destruct H as (u & A & ->). agr A (FE Umu'). agr A (FE Unu'). agr A (FE Uc).
    exists u. split; [|split; [|reflexivity]].
    - intros p. exact (A (FP p)).
    - split; [assumption|]. rewrite <- base_feqb. destruct (_ && _)%bool; [now left|right]. now apply C2.
  Qed.
  Lemma outer_bwd wit N (l r : pvals F) (oe : ovals F) u (cov : coverage) :
    pv_out l <> [] -> pv_out r <> [] -> length (ov_errs oe) = num_error_terms N -> length (ov_collapsed oe) = N ->
    pts_on cb u -> outer_collapse_rel N l r oe u -> cov (FE Uc) = false ->
    okx F wit (outer_collapse F F 1 wit cb N (pre_of wit l r) (oe_of wit oe) (inst_of wit u cov)) (covered wit (u_write u ++ [0]) cov [FE Uc]).
  Proof.
    intros Nl Nr Le Lc O (C1 & C2) HC. unfold outer_collapse. cbn [oe_of oe_errs oe_collapsed].
    bread. bread. bcond (dd_cf F wit (uv_el u Umu') (uv_el u Unu')) C1.
    bcond (dd_fold F wit N (uv_el u Umu' * uv_el u Unu') (finv (uv_el u Umu')) (ov_errs oe) (ov_collapsed oe) Le Lc) I.
    brecve. bcond (dd_is_base F wit l r Nl Nr) I.
    bcond (dd_not F wit (feqb (last (pv_out l) 0) 1 && feqb (last (pv_out r) 0) 1)) I.
    rewrite <- base_feqb in C2.
    assert (C3 : negb (feqb (last (pv_out l) 0) 1 && feqb (last (pv_out r) 0) 1) = true ->
      uv_el u Uc = weigh N (finv (uv_el u Umu')) (uv_el u Umu' * uv_el u Unu') (entry N (ov_errs oe) (ov_collapsed oe))).
    { intros E. destruct C2 as [C2|C2]; [rewrite C2 in E; discriminate|exact C2]. }
    bcond (dd_cond F wit (negb (feqb (last (pv_out l) 0) 1 && feqb (last (pv_out r) 0) 1)) (uv_el u Uc)
             (weigh N (finv (uv_el u Umu')) (uv_el u Umu' * uv_el u Unu') (entry N (ov_errs oe) (ov_collapsed oe)))) C3.
    eapply finish_ok; [reflexivity| |intros [[]|[]]; reflexivity|intros f [<-|[]]; exact HC].
    intros [p|[]]; cbn; auto.
  Qed.
End Collapse.

Lemma nbits_inj n (a b : N) : N.lt a (2 ^ N.of_nat n) -> N.lt b (2 ^ N.of_nat n) -> (forall i, (i < n)%nat -> nbit a i = nbit b i) -> a = b.
Proof.
  intros A B H. apply N.bits_inj. intros i. destruct (N.lt_ge_cases i (N.of_nat n)) as [L|L].
  - specialize (H (N.to_nat i) ltac:(lia)). unfold nbit in H. rewrite N2Nat.id in H. exact H.
  - assert (X : forall c, N.lt c (2 ^ N.of_nat n) -> N.testbit c i = false); [|now rewrite !X].
    intros c C. destruct (N.eq_dec c 0) as [->|Nc]; [apply N.bits_0|]. apply N.bits_above_log2.
    apply N.lt_le_trans with (N.of_nat n); auto. apply N.log2_lt_pow2; lia.
Qed.
Section ComputeV.
  Variable F : Field.
  Open Scope f_scope.
  Variables (cb : F) (k M N nbits : nat) (gen : F) (fsqrt : F -> option F) (zeta : F) (omega : icid -> F).
  Variables (l r : pvals F) (q : queryout F) (ev : evalout F).
  Hypothesis HM : (0 < M)%nat.
  Hypothesis HL : (length (build_claims (eval_source q)) <= M * N)%nat.
  Lemma compute_v_fwd res :
    holds (compute_v F F 1 false cb k M N nbits gen fsqrt zeta omega (pre_of false l r) (query_of F false q) (eval_of F false ev) None) res ->
    exists u, pts_on cb u /\ compute_v_rel false cb k M N nbits gen zeta omega l r q ev u /\ res = (map (el false) (u_write u ++ [0]), None).
  Proof.
    intros H. unfold compute_v in H.
    fcond (dd_pre F false cb l r) H C0. destruct C0 as [C0l C0r]. cbv zeta in H.
    fread H w. fread H y. fread H z. fread H x.
    fcond (dd_txz F false k x z) H C1. destruct C1 as [Nx Nz].
    fread H mu. fread H nu. fread H mu'. fread H nu'.
    fcond (dd_invert F false mu) H Nmu. fcond (dd_invert F false mu') H Nmu'.
    fplain (dd_mul F false mu nu) H. fplain (dd_mul F false mu' nu') H.
    fb H ab Hab.
    fread H alpha. fread H uu.
    set (u0 := mk_uvals (fun _ => (0, 0)) (fun f => match f with Uw => w | Uy => y | Uz => z | Ux => x | Umu => mu | Unu => nu
      | Umu' => mu' | Unu' => nu' | Ualpha => alpha | Uu => uu | _ => 0 end) : uvals F).
    apply (dd_axbx F false k M N q u0 HM HL) in Hab. destruct Hab as [_ ->].
    fcond (dd_denominators F false omega l r u0) H C2.
    cbn [fst snd pre_of pr_left pr_right pin_of pi_uni uout_of uo_el] in H. rewrite queries_of in H.
    fb H h Hh. apply (dd_fu F false alpha _ None) in Hh. destruct Hh as [_ ->].
    rewrite queries_inv in H.
    fb H fu Hfu. apply (dd_finish F false) in Hfu. destruct Hfu as [_ ->]. rewrite quotients_ok in H.
    fread H pb. fb H en Hen. apply extract_w in Hen. destruct Hen as (bs & Lb & Hb & ->).
    fb H be Hbe. apply en_lift_w in Hbe. subst be.
    rewrite eval_write_of in H. fb H h2 Hh2.
    match type of Hh2 with holds (hz_writes _ _ (wir ?b) None (el false ?f :: map _ ?es)) _ =>
      apply (dd_writes F false b (f :: es) None) in Hh2; set (beta := b) in * end.
    destruct Hh2 as [_ ->]. fb H v Hv. apply (dd_finish F false) in Hv. destruct Hv as [_ ->]. fprov H.
    apply finish_fwd in H; [|reflexivity|slots]. destruct H as (u & A & ->).
    exists u. split; [|split; [|reflexivity]].
    - intros p. exact (A (FP p)).
    - subst u0.
      agr A (FE Uw). agr A (FE Uy). agr A (FE Uz). agr A (FE Ux). agr A (FE Umu). agr A (FE Unu). agr A (FE Umu'). agr A (FE Unu').
      agr A (FE Ualpha). agr A (FE Uu). agr A (FE Upre_beta).
      repeat (split; [assumption|]).
      exists beta. split; [exists bs; auto|].
      pose proof (A (FE Uv)) as X. cbn [agree_f sl_value ub_el ub_pt set_el set_pt upt_eqb uel_eqb ub_new] in X. apply el_inj in X.
      rewrite <- X, hzs_hfold. reflexivity.
  Qed.
  Hypothesis sqrt_some : forall v s, fsqrt v = Some s -> s * s = v.
  Hypothesis sqrt_none : forall v, fsqrt v = None -> ~ square v.
  Hypothesis gen_ok : forall v : F, square v \/ square (gen * v).
  Lemma compute_v_bwd wit u (cov : coverage) : pts_on cb u -> compute_v_rel wit cb k M N nbits gen zeta omega l r q ev u -> cov (FE Uv) = false ->
    okx F wit (compute_v F F 1 wit cb k M N nbits gen fsqrt zeta omega (pre_of wit l r) (query_of F wit q) (eval_of F wit ev) (inst_of wit u cov))
        (covered wit (u_write u ++ [0]) cov [FE Uv]).
  Proof.
    intros O (C0l & C0r & Nx & Nz & Nmu & Nmu' & C2 & beta & (bs & Lb & Hb & Eb) & V) HC. unfold compute_v.
    bcond (dd_pre F wit cb l r) (conj C0l C0r).
    bread. bread. bread. bread. bcond (dd_txz F wit k (uv_el u Ux) (uv_el u Uz)) (conj Nx Nz).
    bread. bread. bread. bread.
    bcond (dd_invert F wit (uv_el u Umu)) Nmu. bcond (dd_invert F wit (uv_el u Umu')) Nmu'.
    bcond (dd_mul F wit (uv_el u Umu) (uv_el u Unu)) I. bcond (dd_mul F wit (uv_el u Umu') (uv_el u Unu')) I.
    bcond (dd_axbx F wit k M N q u HM HL) I. bread. bread. bcond (dd_denominators F wit omega l r u) C2.
    cbn [fst snd pre_of pr_left pr_right pin_of pi_uni uout_of uo_el]. rewrite queries_of.
    eapply okx_bind; [exact (det_okr _ _ _ _ _ (dd_fu F wit _ _ None) I)|]. rewrite queries_inv.
    eapply okx_bind; [exact (det_okr _ _ _ _ _ (dd_finish F wit _) I)|]. rewrite quotients_ok.
    bread.
    assert (X : exists en, okr wit (en_extract F F 1 nbits gen fsqrt wit (el wit (uv_el u Upre_beta))) en /\ okr wit (en_lift F F 1 zeta wit en) (el wit beta)).
    { unfold el. destruct wit.
      - assert (Y : exists v, (forall s, exists s', simulate (en_extract F F 1 nbits gen fsqrt true (hon (uv_el u Upre_beta))) s = Some (ehon F nbits v, s')) /\
                              map (nbit v) (seq 0 nbits) = bs).
        { destruct (extract_s F gen fsqrt sqrt_some sqrt_none gen_ok nbits (uv_el u Upre_beta) (mk_simst 0 0 0)) as (v & Bv & Sv & _).
          exists v. split.
          - intros s. destruct (extract_s F gen fsqrt sqrt_some sqrt_none gen_ok nbits (uv_el u Upre_beta) s) as (v' & Bv' & Sv' & E').
            replace v with v'; [eauto|]. apply (nbits_inj nbits); auto. intros i Hi. apply eq_iff_eq_true. rewrite (Sv i Hi), (Sv' i Hi). reflexivity.
          - apply (nth_ext _ _ false false); rewrite map_length, seq_length; [congruence|]. intros i Hi.
            rewrite (nth_indep _ false (nbit v 0)) by (rewrite map_length, seq_length; lia). rewrite map_nth, seq_nth by lia. cbn [Nat.add].
            apply eq_iff_eq_true. rewrite (Sv i Hi), (Hb i Hi). reflexivity. }
        destruct Y as (v & Y1 & Y2). exists (ehon F nbits v). split; [exact Y1|]. intros s. rewrite en_lift_s, Y2, <- Eb. eauto.
      - exists (ewir F bs). split; [apply extract_w; eauto|]. apply en_lift_w. now rewrite Eb. }
    destruct X as (en & X1 & X2). eapply okx_bind; [exact X1|]. eapply okx_bind; [exact X2|].
    rewrite eval_write_of.
    match goal with |- context [hz_writes _ _ _ None (el wit ?f :: map _ ?es)] =>
      eapply okx_bind; [exact (det_okr _ _ _ _ _ (dd_writes F wit beta (f :: es) None) I)|] end.
    eapply okx_bind; [exact (det_okr _ _ _ _ _ (dd_finish F wit _) I)|]. rewrite hzs_hfold.
    cbv zeta in V. rewrite <- V. bprov.
    eapply finish_ok; [reflexivity| |intros [[]|[]]; reflexivity|intros f [<-|[]]; exact HC].
    intros [p|[]]; cbn; auto.
  Qed.
End ComputeV.
