(** C26, C27, C39: folding of revdot claims and tracked commitments. *)
From Coq Require Import List Arith ZArith Bool Lia Ring Field.
From Verif Require Import FieldDef GF ModDef ArithModel ArithSpec SparseModel SparseSpec SparseProofs SparseProofs2 GadgetModel GadgetSpec GadgetProofs PrimModel
  FoldModel FoldSpec FoldProofs FoldProofs2 FoldProofs3.
Import ListNotations.
Local Open Scope nat_scope.
Open Scope f_scope.

(** ** C26 *)
(** The claim folder as a circuit: it is satisfiable exactly for mu <> 0, and its
    result is the sum over all pairs (i, j) of mu^-(n-1-i) (mu nu)^(n-1-j) times
    the claim value on the diagonal and the error term elsewhere. *)
Theorem C26_circuit : forall (F : Field) n (mu nu : F) (errs ky : list F),
  length errs = num_error_terms n -> length ky = n ->
  (forall r, holds (cf <- cf_new 1 (wir mu) (wir nu) ;; fold_products 1 false n cf (map wir errs) (map wir ky)) r <->
     mu <> 0 /\ r = wir (weigh n (finv mu) (mu * nu) (entry n errs ky))) /\
  (forall st, simulate (cf <- cf_new 1 (hon mu) (hon nu) ;; fold_products 1 true n cf (map hon errs) (map hon ky)) st =
     if feqb mu 0 then None
     else Some (hon (weigh n (finv mu) (mu * nu) (entry n errs ky)), bump st 0 (2 + (n * n - 1)) (4 + 2 * (n * n - 1)))).
Proof.
  intros F n mu nu errs ky He Hk. split.
  - intros r. rewrite holds_bind. split.
    + intros (cf & Hc & H). apply cf_new_w in Hc. destruct Hc as (Hm & ->). split; [exact Hm|]. apply fold_products_w in H; assumption.
    + intros (Hm & ->). exists (mk_cfolder (wir (mu * nu)) (wir (finv mu))). split; [apply cf_new_w; auto|]. apply fold_products_w; auto.
  - intros st. rewrite sim_bind, cf_new_s. destruct (feqb mu 0); [reflexivity|]. rewrite fold_products_s by assumption.
    rewrite bump_bump. reflexivity.
Qed.
Print Assumptions C26_circuit.

(** The product of the folded polynomials is the same weighted sum over the
    products of all pairs. *)
Theorem C26_identity : forall (F : Field) NC n (a b : list (poly F)) (s t : F),
  length a = n -> length b = n -> Forall (wf 0 NC) a -> Forall (wf 0 NC) b ->
  exists A B, g_fold (poly_foldable NC) a s = Some A /\ g_fold (poly_foldable NC) b t = Some B /\
    p_revdot NC A B = weigh n s t (fun i j => fsum NC (fun k => coeff_at (nth i a []) k * coeff_at (nth j b []) (NC - 1 - k))).
Proof.
  intros F NC n a b s t La Lb Wa Wb. destruct (one_layer F NC n a b s t La Lb Wa Wb) as (A & B & EA & EB & _ & _ & V). exists A, B. auto.
Qed.
Print Assumptions C26_identity.

(** With the error terms the prover computes, the difference between the folded
    claim and the folded product is each claim's own deviation at its own power
    of nu: nothing else enters. *)
Theorem C26_deviation : forall (F : Field) NC n (a b : list (poly F)) (ky : list F) (mu nu : F),
  (0 < n)%nat -> length a = n -> length b = n -> Forall (wf 0 NC) a -> Forall (wf 0 NC) b -> mu <> 0 ->
  exists errs A B, outer_error_terms NC n a b = Some errs /\ length errs = num_error_terms n /\
    g_fold (poly_foldable NC) a (finv mu) = Some A /\ g_fold (poly_foldable NC) b (mu * nu) = Some B /\
    weigh n (finv mu) (mu * nu) (entry n errs ky) - p_revdot NC A B =
      fsum n (fun i => nu ^ (n - 1 - i) * (nth i ky 0 - p_revdot NC (nth i a []) (nth i b []))).
Proof.
  intros F NC n a b ky mu nu Hn La Lb Wa Wb Hm.
  destruct (errors_ok F NC 1 n a b Hn ltac:(lia) ltac:(lia) Wa Wb) as (es & E & Le & L1 & V).
  destruct (one_layer F NC n a b (finv mu) (mu * nu) La Lb Wa Wb) as (A & B & EA & EB & _ & _ & R).
  destruct es as [|e0 es]; [discriminate|]. unfold outer_error_terms. rewrite E. exists e0, A, B.
  split; [reflexivity|]. split; [apply (L1 O); lia|]. split; [exact EA|]. split; [exact EB|]. rewrite R.
  rewrite (dev_diag F n mu nu e0 ky (fun i j => rdot NC (nth i a []) (nth j b [])) Hm).
  - apply hfold_ext. intros i Hi. rewrite revdot_rdot by (apply wf_nth; assumption). reflexivity.
  - intros i j Hi Hj Hd. exact (V O i j Hi Hj Hd).
Qed.
Print Assumptions C26_deviation.

Section C26s.
Variable F : Field.
Add Field FFpf : (f_theory F).
(** Soundness for error terms and claim values chosen before the challenges: if
    for n distinct nonzero mu there are n distinct nu at which the folded claim
    equals the folded product, then every claim and every error term is right. *)
Theorem C26_sound : forall NC n (a b : list (poly F)) (errs ky : list F) (mus : list F),
  length a = n -> length b = n -> Forall (wf 0 NC) a -> Forall (wf 0 NC) b ->
  NoDup mus -> (n <= length mus)%nat ->
  (forall mu, In mu mus -> mu <> 0 /\ exists nus, NoDup nus /\ (n <= length nus)%nat /\ forall nu, In nu nus ->
     forall A B, g_fold (poly_foldable NC) a (finv mu) = Some A -> g_fold (poly_foldable NC) b (mu * nu) = Some B ->
       weigh n (finv mu) (mu * nu) (entry n errs ky) = p_revdot NC A B) ->
  (forall i, (i < n)%nat -> nth i ky 0 = p_revdot NC (nth i a []) (nth i b [])) /\
  (forall i j, (i < n)%nat -> (j < n)%nat -> i <> j -> nth (err_index n i j) errs 0 = p_revdot NC (nth i a []) (nth j b [])).
Proof.
  intros NC n a b errs ky mus La Lb Wa Wb Hnd Hl H.
  assert (Z : forall i j, (i < n)%nat -> (j < n)%nat -> entry n errs ky i j - rdot NC (nth i a []) (nth j b []) = 0).
  { apply (weigh_zero F n _ mus Hnd Hl). intros mu Hmu. destruct (H mu Hmu) as (Hm & nus & Nn & Ln & Hz). split; [exact Hm|].
    exists nus. split; [exact Nn|]. split; [exact Ln|]. intros nu Hnu.
    destruct (one_layer F NC n a b (finv mu) (mu * nu) La Lb Wa Wb) as (A & B & EA & EB & _ & _ & R).
    rewrite <- weigh_sub, <- R, (Hz nu Hnu A B EA EB). ring. }
  split.
  - intros i Hi. specialize (Z i i Hi Hi). apply (proj1 (fsub_eq_0 F _ _)) in Z. unfold entry in Z. rewrite Nat.eqb_refl in Z. rewrite Z.
    symmetry. apply revdot_rdot; apply wf_nth; assumption.
  - intros i j Hi Hj Hd. specialize (Z i j Hi Hj). apply (proj1 (fsub_eq_0 F _ _)) in Z. unfold entry in Z. destruct (Nat.eqb_spec i j); [contradiction|]. rewrite Z.
    symmetry. apply revdot_rdot; apply wf_nth; assumption.
Qed.
End C26s.
Print Assumptions C26_sound.

Definition pl (l : list Z) : poly F97 := match from_coeffs 4 (map l97 l) with Some p => p | None => [] end.
Definition ex_a := [pl [1; 2; 3; 4]; pl [0; 5]; pl [7; 0; 0; 1]]%Z.
Definition ex_b := [pl [2; 0; 1]; pl [3; 1; 1; 1]; pl [0; 0; 9]]%Z.
(** two true claims and one false one; the folded claim is off by nu * (error) *)
Example C26_ex :
  let ky := map (fun pq => p_revdot 4 (fst pq) (snd pq)) (combine ex_a ex_b) in
  let ky' := [nth 0 ky 0; nth 1 ky 0 + l97 1; nth 2 ky 0] in
  forallb (fun p => negb (Nat.eqb (length p) 0)) (ex_a ++ ex_b) = true /\
  match outer_error_terms 4 3 ex_a ex_b, g_fold (poly_foldable 4) ex_a (finv (l97 5)), g_fold (poly_foldable 4) ex_b (l97 5 * l97 7) with
  | Some errs, Some A, Some B =>
      length errs = 6%nat /\
      v97 (weigh 3 (finv (l97 5)) (l97 5 * l97 7) (entry 3 errs ky)) = v97 (p_revdot 4 A B) /\
      v97 (weigh 3 (finv (l97 5)) (l97 5 * l97 7) (entry 3 errs ky') - p_revdot 4 A B) = 7%Z
  | _, _, _ => False
  end.
Proof. vm_compute. repeat split. Qed.

(** ** C27 *)
(** the values of the inner folder, one per group (missing claims count as zero) *)
Definition collapsed {F : Field} (M N : nat) (mu nu : F) (ie : list (list F)) (ky : list F) : list F :=
  map (fun g => weigh M (finv mu) (mu * nu) (entry M (nth g ie []) (group M g ky 0))) (seq 0 N).
Lemma collapsed_nth {F : Field} M N (mu nu : F) ie ky g : (g < N)%nat ->
  nth g (collapsed M N mu nu ie ky) 0 = weigh M (finv mu) (mu * nu) (entry M (nth g ie []) (group M g ky 0)).
Proof.
  intros Hg. unfold collapsed. set (f := fun g => _). rewrite nth_indep with (d' := f O) by (rewrite map_length, seq_length; exact Hg).
  rewrite (map_nth f), seq_nth by exact Hg. reflexivity.
Qed.

(** Folding in two layers with the computed error terms: the final claim and the
    final product differ by the individual deviations, claim k = g M + i weighted
    by nu'^(N-1-g) nu^(M-1-i).  Holds for every number of claims up to M N. *)
Theorem C27_compose : forall (F : Field) NC M N (a b : list (poly F)) (ky : list F) (mu nu mu' nu' : F),
  (0 < M)%nat -> (0 < N)%nat -> length a = length b -> (length a <= M * N)%nat -> Forall (wf 0 NC) a -> Forall (wf 0 NC) b ->
  mu <> 0 -> mu' <> 0 ->
  exists A1 B1 A B ie oe,
    fold_inner (poly_foldable NC) M N a (finv mu) = Some A1 /\ fold_inner (poly_foldable NC) M N b (mu * nu) = Some B1 /\
    inner_error_terms NC M N a b = Some ie /\ outer_error_terms NC N A1 B1 = Some oe /\
    fold_outer (poly_foldable NC) A1 (finv mu') = Some A /\ fold_outer (poly_foldable NC) B1 (mu' * nu') = Some B /\
    length ie = N /\ Forall (fun e => length e = num_error_terms M) ie /\ length oe = num_error_terms N /\
    weigh N (finv mu') (mu' * nu') (entry N oe (collapsed M N mu nu ie ky)) - p_revdot NC A B =
      fsum N (fun g => nu' ^ (N - 1 - g) * fsum M (fun i => nu ^ (M - 1 - i) *
        (nth (g * M + i) ky 0 - p_revdot NC (nth (g * M + i) a []) (nth (g * M + i) b [])))).
Proof.
  intros F NC M N a b ky mu nu mu' nu' HM HN HL HC Wa Wb Hm Hm'.
  destruct (two_layers F NC M N a b (finv mu) (mu * nu) (finv mu') (mu' * nu') HM HC ltac:(lia) Wa Wb)
    as (A1 & B1 & A & B & EA1 & EB1 & LA1 & LB1 & WA1 & WB1 & EA & EB & WA & WB & G1 & R).
  destruct (errors_ok F NC N M a b HM HL ltac:(lia) Wa Wb) as (ie & Ei & Li & Li1 & Vi).
  destruct (errors_ok F NC 1 N A1 B1 HN ltac:(congruence) ltac:(lia) WA1 WB1) as (es & Eo & Lo & Lo1 & Vo).
  destruct es as [|oe es]; [discriminate|]. exists A1, B1, A, B, ie, oe. unfold inner_error_terms, outer_error_terms. rewrite Eo.
  do 3 (split; [assumption|]). split; [reflexivity|]. do 2 (split; [assumption|]). split; [exact Li|].
  split; [|split; [apply (Lo1 O); lia|]].
  - apply Forall_forall. intros e He. apply In_nth with (d := []) in He. destruct He as (g & Hg & <-). apply Li1. lia.
  - rewrite R. rewrite (dev_diag F N mu' nu' oe _ (fun g h => rdot NC (nth g A1 []) (nth h B1 [])) Hm').
    + apply hfold_ext. intros g Hg. rewrite collapsed_nth, G1 by exact Hg.
      rewrite (dev_diag F M mu nu (nth g ie []) _ (fun i j => rdot NC (nth (g * M + i) a []) (nth (g * M + j) b [])) Hm).
      * apply hfold_ext. intros i Hi. rewrite group_nth by exact Hi. rewrite revdot_rdot by (apply wf_nth; assumption). reflexivity.
      * intros i j Hi Hj Hd. apply Vi; assumption.
    + intros g h Hg Hh Hd. exact (Vo O g h Hg Hh Hd).
Qed.
Print Assumptions C27_compose.

Section C27s.
Variable F : Field.
Add Field FFpg : (f_theory F).
(** Soundness of the two layers for adversarial error terms: the inner error
    terms are fixed before (mu, nu), the outer ones before (mu', nu'). *)
Theorem C27_sound : forall NC M N (a b : list (poly F)) (ky : list F) (ie : list (list F)) (mus : list F),
  (0 < M)%nat -> length a = length b -> (length a <= M * N)%nat -> Forall (wf 0 NC) a -> Forall (wf 0 NC) b ->
  NoDup mus -> (M <= length mus)%nat ->
  (forall mu, In mu mus -> mu <> 0 /\ exists nus, NoDup nus /\ (M <= length nus)%nat /\ forall nu, In nu nus ->
     exists (oe mus' : list F), NoDup mus' /\ (N <= length mus')%nat /\ forall mu', In mu' mus' -> mu' <> 0 /\
       exists nus', NoDup nus' /\ (N <= length nus')%nat /\ forall nu', In nu' nus' ->
         forall A1 B1 A B, fold_inner (poly_foldable NC) M N a (finv mu) = Some A1 -> fold_inner (poly_foldable NC) M N b (mu * nu) = Some B1 ->
           fold_outer (poly_foldable NC) A1 (finv mu') = Some A -> fold_outer (poly_foldable NC) B1 (mu' * nu') = Some B ->
           weigh N (finv mu') (mu' * nu') (entry N oe (collapsed M N mu nu ie ky)) = p_revdot NC A B) ->
  (forall k, (k < length a)%nat -> nth k ky 0 = p_revdot NC (nth k a []) (nth k b [])) /\
  (forall k, (length a <= k < M * N)%nat -> nth k ky 0 = 0).
Proof.
  intros NC M N a b ky ie mus HM HL HC Wa Wb Hnd Hl H.
  assert (Z : forall g, (g < N)%nat -> forall i j, (i < M)%nat -> (j < M)%nat ->
    entry M (nth g ie []) (group M g ky 0) i j - rdot NC (nth (g * M + i) a []) (nth (g * M + j) b []) = 0).
  { intros g Hg. apply (weigh_zero F M _ mus Hnd Hl). intros mu Hmu. destruct (H mu Hmu) as (Hm & nus & Nn & Ln & Hz). split; [exact Hm|].
    exists nus. split; [exact Nn|]. split; [exact Ln|]. intros nu Hnu. destruct (Hz nu Hnu) as (oe & mus' & Nm' & Lm' & Hz').
    destruct (two_layers F NC M N a b (finv mu) (mu * nu) 0 0 HM HC ltac:(lia) Wa Wb)
      as (A1 & B1 & _ & _ & EA1 & EB1 & _ & _ & _ & _ & _ & _ & _ & _ & G1 & _).
    assert (ZZ : forall g h, (g < N)%nat -> (h < N)%nat -> entry N oe (collapsed M N mu nu ie ky) g h - rdot NC (nth g A1 []) (nth h B1 []) = 0).
    { apply (weigh_zero F N _ mus' Nm' Lm'). intros mu' Hmu'. destruct (Hz' mu' Hmu') as (Hm' & nus' & Nn' & Ln' & Hz2). split; [exact Hm'|].
      exists nus'. split; [exact Nn'|]. split; [exact Ln'|]. intros nu' Hnu'.
      destruct (two_layers F NC M N a b (finv mu) (mu * nu) (finv mu') (mu' * nu') HM HC ltac:(lia) Wa Wb)
        as (A1' & B1' & A & B & EA1' & EB1' & _ & _ & _ & _ & EA & EB & _ & _ & _ & R).
      assert (A1' = A1) by congruence. assert (B1' = B1) by congruence. subst A1' B1'.
      rewrite <- weigh_sub, <- R, (Hz2 nu' Hnu' A1 B1 A B EA1 EB1 EA EB). ring. }
    specialize (ZZ g g Hg Hg). unfold entry at 1 in ZZ. rewrite Nat.eqb_refl, collapsed_nth, G1, weigh_sub in ZZ by exact Hg. exact ZZ. }
  assert (Y : forall k, (k < M * N)%nat -> nth k ky 0 = rdot NC (nth k a []) (nth k b [])).
  { intros k Hk. assert (Hg : (k / M < N)%nat) by (apply Nat.div_lt_upper_bound; lia).
    assert (Hi : (k mod M < M)%nat) by (apply Nat.mod_upper_bound; lia). specialize (Z _ Hg _ _ Hi Hi).
    unfold entry in Z. rewrite Nat.eqb_refl, group_nth in Z by exact Hi.
    replace (k / M * M + k mod M)%nat with k in Z by (pose proof (Nat.div_mod_eq k M); nia). apply (proj1 (fsub_eq_0 F _ _)) in Z. exact Z. }
  split.
  - intros k Hk. rewrite Y by lia. symmetry. apply revdot_rdot; apply wf_nth; assumption.
  - intros k Hk. rewrite Y by lia. rewrite nth_overflow by lia. apply rdot_nil_l.
Qed.
End C27s.
Print Assumptions C27_sound.

(** Evaluations fold like polynomials: the in-circuit two-layer fold of the
    evaluations is the evaluation of the two-layer folded polynomial. *)
Theorem C27_eval : forall (F : Field) NC M N (a : list (poly F)) (s s' z : F),
  (0 < M)%nat -> (length a <= M * N)%nat -> Forall (wf 0 NC) a ->
  exists A1 A, fold_inner (poly_foldable NC) M N a s = Some A1 /\ fold_outer (poly_foldable NC) A1 s' = Some A /\
    (forall r, holds (fold_two_layer 1 false M N (map wir (map (fun p => p_eval NC p z) a)) (wir s) (wir s')) r <-> r = wir (p_eval NC A z)) /\
    (forall st, exists k, simulate (fold_two_layer 1 true M N (map hon (map (fun p => p_eval NC p z) a)) (hon s) (hon s')) st
       = Some (hon (p_eval NC A z), bump st 0 k (2 * k))).
Proof.
  intros F NC M N a s s' z HM HC Wa.
  destruct (two_layers F NC M N a a s s s' s' HM HC HC Wa Wa) as (A1 & _ & A & _ & EA1 & _ & _ & _ & _ & _ & EA & _).
  exists A1, A. split; [exact EA1|]. split; [exact EA|].
  rewrite (eval_two_layer F NC M N a s s' z A1 A HM HC Wa EA1 EA). split.
  - intros r. apply fold_two_layer_w; [exact HM|]. rewrite map_length. exact HC.
  - intros st. apply fold_two_layer_s; [exact HM|]. rewrite map_length. exact HC.
Qed.
Print Assumptions C27_eval.

(** More claims than M N, or unequal numbers of a's and b's, are rejected. *)
Theorem C27_reject : forall (F : Field) NC M N,
  (forall (T : Type) (fd : foldable F T) (ps : list T) (s : F), (M * N < length ps)%nat -> fold_inner fd M N ps s = None) /\
  (forall (a b : list (poly F)), (length a <> length b \/ M * N < length a)%nat -> inner_error_terms NC M N a b = None).
Proof.
  intros F NC M N. split.
  - intros T fd ps s. apply fold_inner_none.
  - intros a b H. apply errors_none. lia.
Qed.
Print Assumptions C27_reject.

(** [fold_two_layer] has no such check: it returns a value for any number of
    evaluations (one per chunk beyond N), so rejection fails for it. *)
Definition no_reject := fold_two_layer (1 : F97) true 2 1 (map hon [l97 1; l97 2; l97 3]) (hon (l97 2)) (hon (l97 3)).
Theorem C27_two_layer_bound_refuted :
  (2 * 1 < 3)%nat /\ match simulate no_reject (mk_simst 0 0 0) with Some (r, _) => v97 (ew _ _ r) = 18%Z | None => False end.
Proof. split; [lia|]. vm_compute. reflexivity. Qed.
Print Assumptions C27_two_layer_bound_refuted.

(** three claims in groups of two (the second group is partial), three groups *)
Example C27_ex :
  let ky := map (fun pq => p_revdot 4 (fst pq) (snd pq)) (combine ex_a ex_b) in
  let mu := l97 5 in let nu := l97 7 in let mu' := l97 11 in let nu' := l97 13 in
  match fold_inner (poly_foldable 4) 2 3 ex_a (finv mu), fold_inner (poly_foldable 4) 2 3 ex_b (mu * nu), inner_error_terms 4 2 3 ex_a ex_b with
  | Some A1, Some B1, Some ie =>
      match outer_error_terms 4 3 A1 B1, fold_outer (poly_foldable 4) A1 (finv mu'), fold_outer (poly_foldable 4) B1 (mu' * nu') with
      | Some oe, Some A, Some B =>
          v97 (p_revdot 4 A B) <> 0%Z /\
          v97 (weigh 3 (finv mu') (mu' * nu') (entry 3 oe (collapsed 2 3 mu nu ie ky))) = v97 (p_revdot 4 A B) /\
          v97 (p_eval 4 A (l97 9)) = v97 (two_layer 2 3 (map (fun p => p_eval 4 p (l97 9)) ex_a) (finv mu) (finv mu'))
      | _, _, _ => False
      end
  | _, _, _ => False
  end.
Proof. vm_compute. repeat split. discriminate. Qed.

(** ** C39 *)
(** Tracked polynomials reachable in the fuse pipeline: sources, sums (internal
    circuit claims), bonding folds, and both layers of claim folding. *)
Inductive built {F : Field} {K : Type} (NC : nat) (src : K -> poly F) : tracked F K -> Prop :=
| b_single key : built NC src (t_single (src key) key)
| b_sum keys t : t_sum NC (map (fun k => (k, src k)) keys) = Some t -> built NC src t
| b_bond keys z t : t_bond NC (map (fun k => (k, src k)) keys) z = Some t -> built NC src t
| b_fold ts s t : (forall u, In u ts -> built NC src u) -> g_fold (tracked_foldable NC) ts s = Some t -> built NC src t
| b_inner M N ts s rs t : (0 < M)%nat -> (forall u, In u ts -> built NC src u) -> fold_inner (tracked_foldable NC) M N ts s = Some rs -> In t rs -> built NC src t.

Lemma built_tracks {F : Field} {K : Type} NC (src : K -> poly F) : (forall k, wf 0 NC (src k)) -> forall t, built NC src t -> tracks F NC K src t.
Proof.
  intros W. fix IH 2. intros t H. destruct H as [key|keys t E|keys z t E|ts s t Hts E|M N ts s rs t HM Hts E Hin].
  - apply track_single. apply W.
  - destruct (track_sum F NC K src (map (fun k => (k, src k)) keys)) as (r & Er & Hr).
    + intros X. rewrite X in E. discriminate.
    + intros kp Hkp. apply in_map_iff in Hkp. destruct Hkp as (k & <- & _). cbn [fst snd]. auto.
    + assert (r = t) by congruence. subst r. exact Hr.
  - unfold t_bond in E. destruct (track_fold F NC K src (map (fun a => t_single (snd a) (fst a)) (map (fun k => (k, src k)) keys)) z) as (r & Er & Hr).
    + apply Forall_forall. intros u Hu. apply in_map_iff in Hu. destruct Hu as (a & <- & Ha). apply in_map_iff in Ha. destruct Ha as (k & <- & _).
      cbn [fst snd]. apply track_single. apply W.
    + assert (r = t) by congruence. subst r. exact Hr.
  - destruct (track_fold F NC K src ts s) as (r & Er & Hr).
    + apply Forall_forall. intros u Hu. apply IH. apply Hts. exact Hu.
    + assert (r = t) by congruence. subst r. exact Hr.
  - destruct (Nat.lt_ge_cases (M * N) (length ts)) as [X|X]; [rewrite fold_inner_none in E by exact X; discriminate|].
    destruct (track_inner F NC K src M N ts s HM X) as (r & Er & _ & Hr).
    + apply Forall_forall. intros u Hu. apply IH. apply Hts. exact Hu.
    + assert (r = rs) by congruence. subst r. rewrite Forall_forall in Hr. apply Hr. exact Hin.
Qed.

(** Whatever was folded, the commitment assembled from the recorded coefficients
    and the sources' commitments is the commitment of the folded polynomial. *)
Theorem C39_commitment : forall (F : Field) (K : Type) (keqb : K -> K -> bool) NC (src : K -> poly F) (C : FMod F) (gens : list C) (get : K -> C),
  (forall a b, keqb a b = true <-> a = b) -> (forall k, wf 0 NC (src k)) -> (NC <= length gens)%nat ->
  (forall k, p_commit NC gens (src k) = Some (get k)) ->
  forall t, built NC src t -> p_commit NC gens (fst t) = Some (resolve keqb get (snd t)).
Proof.
  intros F K keqb NC src C gens get HK W HG Hget t Ht.
  apply (resolve_ok F NC K keqb HK src C gens HG get t); [|apply built_tracks; assumption].
  intros key _. split; [apply W|apply Hget].
Qed.
Print Assumptions C39_commitment.

(** The folds never fail on reachable inputs within capacity. *)
Theorem C39_total : forall (F : Field) (K : Type) NC (src : K -> poly F), (forall k, wf 0 NC (src k)) ->
  (forall keys, keys <> [] -> exists t, t_sum NC (map (fun k => (k, src k)) keys) = Some t) /\
  (forall ts s, (forall u, In u ts -> built NC src u) -> exists t, g_fold (tracked_foldable NC) ts s = Some t) /\
  (forall M N ts s, (0 < M)%nat -> (length ts <= M * N)%nat -> (forall u, In u ts -> built NC src u) ->
     exists rs, fold_inner (tracked_foldable NC) M N ts s = Some rs /\ length rs = N).
Proof.
  intros F K NC src W. split; [|split].
  - intros keys Hk. destruct (track_sum F NC K src (map (fun k => (k, src k)) keys)) as (r & Er & _); [destruct keys; [congruence|discriminate]| |eauto].
    intros kp Hkp. apply in_map_iff in Hkp. destruct Hkp as (k & <- & _). cbn [fst snd]. auto.
  - intros ts s H. destruct (track_fold F NC K src ts s) as (r & Er & _); [|eauto]. apply Forall_forall. intros u Hu. apply built_tracks; auto.
  - intros M N ts s HM HL H. destruct (track_inner F NC K src M N ts s HM HL) as (r & Er & Lr & _); [|eauto].
    apply Forall_forall. intros u Hu. apply built_tracks; auto.
Qed.
Print Assumptions C39_total.

(** Merging equal keys leaves one entry per key and the same combination. *)
Theorem C39_dedup : forall (F : Field) (K : Type) (keqb : K -> K -> bool) (terms : list (K * F)),
  (forall a b, keqb a b = true <-> a = b) ->
  NoDup (map fst (dedup keqb terms)) /\
  (forall x, In x (map fst (dedup keqb terms)) <-> In x (map fst terms)) /\
  (forall w : K -> F, lsum (map (fun kc => snd kc * w (fst kc)) (dedup keqb terms)) = lsum (map (fun kc => snd kc * w (fst kc)) terms)).
Proof.
  intros F K keqb terms HK. destruct (dedup_nodup F K keqb HK (fun _ => []) terms) as (A & B). split; [exact A|]. split; [exact B|].
  intros w. exact (dedup_coeff F K keqb HK (fun k => [(O, [w k])]) terms O).
Qed.
Print Assumptions C39_dedup.

(** two sums sharing a source, folded: one entry per key *)
Example C39_ex :
  let src k := nth k ex_a [] in
  let gens := map l97 [3; 5; 8; 13]%Z : list (FieldMod F97) in
  match t_sum 4 (map (fun k => (k, src k)) [0; 1]%nat), t_bond 4 (map (fun k => (k, src k)) [1; 2]%nat) (l97 6) with
  | Some t, Some u =>
      match g_fold (tracked_foldable 4) [t; u] (l97 10) with
      | Some r =>
          length (snd r) = 4%nat /\ map fst (dedup Nat.eqb (snd r)) = [0; 1; 2]%nat /\
          map (fun kc => v97 (snd kc)) (dedup Nat.eqb (snd r)) = [10; 16; 1]%Z /\
          match p_commit 4 gens (fst r) with
          | Some c => v97 c = v97 (resolve Nat.eqb (fun k => match p_commit 4 gens (src k) with Some c => c | None => m0 end) (snd r))
          | None => False
          end
      | None => False
      end
  | _, _ => False
  end.
Proof. vm_compute. repeat split. Qed.
