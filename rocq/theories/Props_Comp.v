(** C51, C52: what an accepted polynomial says about the code of its circuit.
    [generic] code is code that does not look at its driver (C50); [cbody], [couts]
    and [sprog] are what registration obtains from it. *)
From Coq Require Import List Arith NArith ZArith Bool Lia.
From Verif Require Import FieldDef GF ArithModel ArithSpec SparseModel SparseSpec SparseProofs SparseProofs2 GadgetModel GadgetSpec GadgetProofs
  CircModel CircSpec TraceModel SatProofs AppModel AppSpec StageModel StageSpec StageProofs StageProofs2 CompileModel CompileSpec CompileSpec2 CompileProofs CompileProofs2 CompileProofs3
  Props_App ParSpec ParProofs ParProofs2 Props_Par.
Import ListNotations.
Local Open Scope nat_scope.

(** ** circuits without stages *)
(** The constraints of the registered circuit are satisfiable with given outputs
    exactly when the gadget relations of the code are; the blinding wire is free. *)
Theorem C51_rows : forall (F : Field) n (p : circuit F) outs outputs (alpha : F), generic p -> couts p = Some outs -> fits n (cbody p) outs ->
  ((exists a b c d, length a <= n /\ length b <= n /\ length c <= n /\ length d <= n /\ nth 0 d f0 = alpha /\
      satisfied n a b c d (cbody p) outs outputs) <->
   exists r, holds (p F f1) r /\ map (ew F F) r = outputs).
Proof.
  intros F n p outs outputs alpha G O [Fg Fc]. split.
  - intros (a & b & c & d & _ & _ & _ & _ & _ & S). eapply satisfied_holds; eauto.
  - intros (r & H & <-). destruct (holds_satisfied n alpha p outs r G O Fg H) as (a & b & c & d & La & Lb & Lc & Ld & Ha & _ & S).
    exists a, b, c, d. repeat (split; [assumption|]). exact S.
Qed.
Print Assumptions C51_rows.

(** Code whose relations can be met compiles. *)
Theorem C51_total : forall (F : Field) (p : circuit F) r, generic p -> holds (p F f1) r -> couts p <> None.
Proof.
  intros F p r G H. destruct (holds_sem _ _ [f0; f0; f0; f0] r (generic_agree p [f0; f0; f0; f0] G eq_refl) H) as (q & r1 & _ & E & _).
  cbn [length] in E. unfold couts. rewrite E. discriminate.
Qed.
Print Assumptions C51_total.

(** Completeness: every run meeting the relations has a trace polynomial that passes
    at all challenges. *)
Theorem C51_complete : forall (F : Field) n (p : circuit F) outs res (alpha : F),
  generic p -> couts p = Some outs -> fits n (cbody p) outs -> holds (p F f1) res ->
  exists r, wf 0 (4 * n) r /\ coeff_at r (4 * n - 1) = alpha /\ coeff_at r 0 = f0 /\ forall y z, passes F n r (cbody p) outs (map (ew F F) res) y z.
Proof.
  intros F n p outs res alpha G O [Fg Fc] H.
  destruct (holds_satisfied n alpha p outs res G O Fg H) as (a & b & c & d & La & Lb & Lc & Ld & Ha & Hc0 & S).
  destruct (trace_build_ok F n a b c d La Lb Lc Ld) as (r & E & W & C).
  assert (0 < n) by (rewrite (circuit_sizes p outs) in Fg; cbn in Fg; lia).
  exists r. split; [exact W|]. split; [|split].
  - rewrite C. unfold trace_coeff. repeat match goal with |- context [?x <? ?y] => destruct (Nat.ltb_spec x y); try lia end.
    replace (4 * n - 1 - (4 * n - 1)) with 0 by lia. exact Ha.
  - rewrite C. unfold trace_coeff. destruct (Nat.ltb_spec 0 n); [exact Hc0|lia].
  - intros y z. apply (sat_complete F n (cbody p) outs (map (ew F F) res) a b c d r); auto.
    + apply (circuit_owned p outs G O).
    + destruct S as [_ (_ & _ & Ho & _)]. rewrite <- Ho. now rewrite map_length.
Qed.
Print Assumptions C51_complete.

(** Soundness: a polynomial of degree below 4n whose claim holds at 4n x 4n
    challenges comes from a run meeting the relations, with those outputs. *)
Theorem C51_sound : forall (F : Field) n (p : circuit F) outs outputs r ys,
  generic p -> couts p = Some outs -> fits n (cbody p) outs -> length outputs = length outs ->
  wf 0 (4 * n) r -> NoDup ys -> 4 * n <= length ys -> accepted n r (cbody p) outs outputs ys ->
  exists res, holds (p F f1) res /\ map (ew F F) res = outputs.
Proof.
  intros F n p outs outputs r ys G O [Fg Fc] L W N Ly A.
  eapply satisfied_holds; eauto. eapply poly_sound; eauto. apply (circuit_owned p outs G O).
Qed.
Print Assumptions C51_sound.

(** The rerandomization circuit: an accepted polynomial has an arbitrary left
    header, the trivial right header and an output header equal to the left one. *)
Definition re_circuit {F : Field} hs (v t : F) data : circuit F := fun W one => rerandomize_circuit F W one false hs (Some v) (Some t) data.
Lemma re_generic {F : Field} hs (v t : F) data : generic (re_circuit hs v t data).
Proof. intros W1 W2 o1 o2 RW Ho. apply rerandomize_p; try exact Ho; try reflexivity. Qed.
Theorem C51_rerandomize : forall (F : Field) n hs (v t : F) data outs outputs r ys, length data < hs ->
  let p := re_circuit hs v t data in
  couts p = Some outs -> fits n (cbody p) outs -> length outputs = length outs ->
  wf 0 (4 * n) r -> NoDup ys -> 4 * n <= length ys -> accepted n r (cbody p) outs outputs ys ->
  exists h, length h = hs /\ outputs = h ++ AppSpec.padded hs t [] ++ h.
Proof.
  intros F n hs v t data outs outputs r ys Hd p O Hf L W N Ly A.
  destruct (C51_sound F n p outs outputs r ys (re_generic hs v t data) O Hf L W N Ly A) as (res & H & E).
  destruct (C44_rerandomize F hs v t data Hd) as (_ & K & _). apply K in H. destruct H as (h & Lh & ->). exists h. split; [exact Lh|].
  rewrite <- E, map_map. cbn [ew wir]. now rewrite map_id.
Qed.
Print Assumptions C51_rerandomize.

(** ** multi-stage circuits *)
(** Code whose relations can be met on stages of the right sizes compiles, and only
    stages whose gadgets fit do. *)
Theorem C52_total : forall (F : Field) stages (k : staged F) vs res, generic_staged k ->
  map (@length F) vs = map snd stages -> holds (k F f1 vs) res ->
  (sprog stages k <> None <-> Forall (fun s => snd s <= fst s) stages).
Proof.
  intros F stages k vs res G L H.
  assert (E0 : fits_ok stages = true <-> Forall (fun s => snd s <= fst s) stages).
  { unfold fits_ok. rewrite forallb_forall, Forall_forall. split; intros K x Hx; specialize (K x Hx); [now apply Nat.leb_le|now apply Nat.leb_le]. }
  rewrite <- E0. split.
  - destruct (sprog stages k) as [[body outs]|] eqn:E; [|congruence]. intros _. apply (sprog_inv stages k body outs E).
  - intros Hf. unfold sprog. rewrite add_stages_ok. fold (fits_ok stages). rewrite Hf. fold (guards_of stages).
    rewrite stages_end_ok by exact Hf. 
    match goal with |- context [compile ?x _] => set (p1 := x) end.
    destruct (staged_wires stages vs Hf L) as (wires & Lw & Hw).
    pose proof (staged_agree stages k [f0; f0; f0; f0] wires vs G Hf eq_refl L Hw) as Ag.
    destruct (holds_sem _ _ _ _ Ag H) as (q & r1 & _ & E & _). rewrite app_length, Lw in E. cbn [length] in E.
    change (k wref WOne (guards_of stages)) with p1 in E. rewrite E. rewrite add_stages_ok. fold (fits_ok stages). rewrite Hf. discriminate.
Qed.
Print Assumptions C52_total.

(** Soundness: stage polynomials passing their stage checks, a final polynomial
    passing the final mask and a combined polynomial whose claim holds at enough
    challenges: the code's relations hold of the values the stage polynomials
    carry. *)
Theorem C52_sound : forall (F : Field) n stages (k : staged F) body outs outputs rf r rs ys,
  stages <> [] -> generic_staged k -> sprog stages k = Some (body, outs) -> fits n body outs -> length outputs = length outs ->
  wf 0 (4 * n) rf -> wf 0 (4 * n) r -> length rs = length stages -> Forall (wf 0 (4 * n)) rs -> combined r rf rs ->
  NoDup ys -> 4 * n <= length ys ->
  Forall (final_checked n (map fst stages) rf) ys ->
  (forall i, i < length stages -> Forall (stage_checked n (map fst stages) i (nth i rs [])) ys) ->
  accepted n r body outs outputs ys ->
  exists res, holds (k F f1 (map (fun i => stage_values (poly_wires n (nth i rs [])) stages i) (seq 0 (length stages)))) res /\
    map (ew F F) res = outputs.
Proof.
  intros F n stages k body outs outputs rf r rs ys Hne G S [Fg Fc] Lo Wf W Lr Wr C N Ly Hfin Hst A.
  destruct (exists_last Hne) as (stages0 & [v w] & ->).
  rewrite Forall_forall in Wr, Hfin.
  apply (staged_sound F n stages0 v w k body outs outputs rf r (fun i => nth i rs []) ys G S Fg Fc Lo Wf); auto.
  - intros i Hi. apply Wr, nth_In. lia.
  - intros e. rewrite C, Lr. reflexivity.
  - intros y Hy. specialize (Hfin y Hy). unfold final_checked in Hfin.
    rewrite map_app in Hfin; cbn [map fst] in Hfin; rewrite removelast_last, last_last in Hfin. exact Hfin.
  - intros i v' w' E y Hy. assert (Hi : i < length (stages0 ++ [(v, w)])) by (apply nth_error_Some; congruence).
    specialize (Hst i Hi). rewrite Forall_forall in Hst. specialize (Hst y Hy). unfold stage_checked in Hst.
    assert (E' : nth i (map fst (stages0 ++ [(v, w)])) 0 = v').
    { rewrite (map_nth fst _ (0, 0)), (nth_error_nth _ _ (0, 0) E). reflexivity. }
    rewrite E' in Hst. exact Hst.
Qed.
Print Assumptions C52_sound.

(** Completeness: values meeting the relations are carried by stage polynomials
    ([stage_rx], any blinding) that with a suitable final polynomial pass everything. *)
Theorem C52_complete : forall (F : Field) n stages (k : staged F) body outs vs res (alphas : list F),
  stages <> [] -> generic_staged k -> sprog stages k = Some (body, outs) -> fits n body outs ->
  map (@length F) vs = map snd stages -> holds (k F f1 vs) res ->
  exists rf r rs, wf 0 (4 * n) rf /\ coeff_at rf 0 = f0 /\ wf 0 (4 * n) r /\ length rs = length stages /\ Forall (wf 0 (4 * n)) rs /\ combined r rf rs /\
    (forall i, i < length stages ->
       stage_rx n (rev (firstn i (map fst stages))) (fst (nth i stages (0, 0))) (nth i alphas f0) (nth i vs []) = Some (nth i rs []) /\
       stage_values (poly_wires n (nth i rs [])) stages i = nth i vs []) /\
    (forall y, final_checked n (map fst stages) rf y) /\
    (forall i, i < length stages -> forall y, stage_checked n (map fst stages) i (nth i rs []) y) /\
    forall y z, passes F n r body outs (map (ew F F) res) y z.
Proof.
  intros F n stages k body outs vs res alphas Hne G S [Fg Fc] Lv H.
  destruct (exists_last Hne) as (stages0 & [v w] & ->).
  destruct (staged_complete F n stages0 v w k body outs vs res f0 (fun i => nth i alphas f0) G S Fg Fc Lv H)
    as (rf & r & rs & Wf & Wf0 & W & Hrs & C & Hfin & Hst & P).
  set (stages := stages0 ++ [(v, w)]) in *. set (l := map rs (seq 0 (length stages))).
  assert (E : forall i, i < length stages -> nth i l [] = rs i).
  { intros i Hi. unfold l. now rewrite nth_map_seq by exact Hi. }
  exists rf, r, l. split; [exact Wf|]. split; [exact Wf0|]. split; [exact W|].
  assert (Ll : length l = length stages) by (unfold l; now rewrite map_length, seq_length).
  split; [exact Ll|]. split.
  { apply Forall_forall. intros x Hx. unfold l in Hx. apply in_map_iff in Hx. destruct Hx as (i & <- & Hi). apply in_seq in Hi. apply Hrs. lia. }
  split. { intros e. rewrite C, Ll. f_equal. apply fsum_ext. intros i Hi. now rewrite E by exact Hi. }
  split. { intros i Hi. rewrite E by exact Hi. destruct (Hrs i Hi) as (A1 & _ & A2). auto. }
  split. { intros y. unfold final_checked, stages. rewrite map_app; cbn [map fst]; rewrite removelast_last, last_last. apply Hfin. }
  split; [|exact P].
  intros i Hi y. rewrite E by exact Hi. destruct (nth_error stages i) as [[v' w']|] eqn:En; [|apply nth_error_None in En; lia].
  unfold stage_checked. rewrite (map_nth fst _ (0, 0)), (nth_error_nth _ _ (0, 0) En). apply (Hst i v' w' En).
Qed.
Print Assumptions C52_complete.

(** ** examples *)
(** inverting one element and multiplying by another: wires x, y, 1/x, y/x *)
Lemma ex_inv_generic : generic (F := F97) (ex_inv false (l97 0) (l97 0)).
Proof. intros W1 W2 o1 o2 RW Ho. apply ex_inv_p; [exact Ho|reflexivity]. Qed.
Example C51_ex : let p := ex_inv (F := F97) false (l97 0) (l97 0) in
  couts p = Some [WVar 12] /\ fits 8 (cbody p) [WVar 12] /\
  (exists res, holds (p F97 f1) res /\ map (fun e => v97 (ew F97 F97 e)) res = [52%Z]) /\
  exists r, wf 0 32 r /\ forall y z, passes F97 8 r (cbody p) [WVar 12] [l97 52] y z.
Proof.
  intros p. assert (O : couts p = Some [WVar 12]) by (vm_compute; reflexivity).
  assert (Hf : fits 8 (cbody p) [WVar 12]).
  { split; unfold p; vm_compute; lia. }
  assert (H : exists res, holds (p F97 f1) res /\ map (ew F97 F97) res = [l97 52]).
  { exists [wir (l97 52)]. split; [|reflexivity]. unfold p, ex_inv. rewrite holds_bind. exists (wir (l97 2)). split; [exists (l97 2); reflexivity|].
    rewrite holds_bind. exists (wir (l97 7)). split; [exists (l97 7); reflexivity|].
    rewrite holds_bind. exists (wir (finv (l97 2))). split; [apply e_invert_w; split; [intros E; apply (f_equal v97) in E; vm_compute in E; discriminate|reflexivity]|].
    rewrite holds_bind. exists (wir (finv (l97 2) * l97 7)%F). split; [now apply e_mul_w|]. reflexivity. }
  split; [exact O|]. split; [exact Hf|]. split.
  - destruct H as (res & H & E). exists res. split; [exact H|]. rewrite <- (map_map (ew F97 F97) v97), E. reflexivity.
  - destruct H as (res & H & E). destruct (C51_complete F97 8 p [WVar 12] res (l97 3) ex_inv_generic O Hf H) as (r & W & _ & _ & P).
    exists r. split; [exact W|]. rewrite E in P. exact P.
Qed.

(** three values in a base stage, one in the next; the code multiplies the first two,
    compares with the second stage and returns the third *)
Definition ex_two {F : Field} : staged F := fun W one gs =>
  match gs with
  | [[a; b; c]; [d]] =>
      gbind (e_mul F W (mk_elem F W a None) (mk_elem F W b None)) (fun m =>
      gbind (g_equal F W (ew F W m) d) (fun _ => GRet [mk_elem F W c None]))
  | _ => GErr
  end.
Lemma ex_two_generic {F : Field} : generic_staged (F := F) ex_two.
Proof.
  intros W1 W2 o1 o2 RW gs1 gs2 Ho Hg. unfold ex_two.
  destruct Hg as [|g1 g1' gs1 gs1' H1 Hg]; [apply gr_err|].
  destruct H1 as [|a a' l l' Ha H1]; [apply gr_err|]. destruct H1 as [|b b' l l' Hb H1]; [apply gr_err|].
  destruct H1 as [|c c' l l' Hc H1]; [apply gr_err|]. destruct H1 as [|x x' l l' Hx H1]; [|apply gr_err].
  destruct Hg as [|g2 g2' gs1 gs1' H2 Hg]; [apply gr_err|].
  destruct H2 as [|d d' l l' Hd H2]; [apply gr_err|]. destruct H2 as [|x x' l l' Hx H2]; [|apply gr_err].
  destruct Hg as [|g3 g3' gs1 gs1' H3 Hg]; [|apply gr_err].
  assert (K : forall (w : W1) (w' : W2), RW w w' -> erel RW true (mk_elem F W1 w None) (mk_elem F W2 w' None)) by (intros; split; [assumption|reflexivity]).
  gp.
Qed.
Example C52_ex : let stages := [(3, 3); (2, 1)] in let vs := [[l97 3; l97 5; l97 7]; [l97 15]] in
  exists body outs, sprog stages (ex_two (F := F97)) = Some (body, outs) /\ fits 8 body outs /\ length outs = 1 /\
  (exists res, holds (ex_two F97 f1 vs) res /\ map (ew F97 F97) res = [l97 7]) /\
  exists rf r rs, combined r rf rs /\ (forall y, final_checked 8 [3; 2] rf y) /\
    (forall i, i < 2 -> forall y, stage_checked 8 [3; 2] i (nth i rs []) y) /\
    (forall i, i < 2 -> stage_values (poly_wires 8 (nth i rs [])) stages i = nth i vs []) /\
    forall y z, passes F97 8 r body outs [l97 7] y z.
Proof.
  intros stages vs.
  assert (H : holds (ex_two F97 f1 vs) [wir (l97 7)]).
  { cbn [vs ex_two]. rewrite holds_bind. exists (wir (l97 3 * l97 5)%F). split; [now apply e_mul_w|].
    rewrite holds_bind. exists tt. split; [|reflexivity]. cbn [g_equal holds ew wir]. split; [apply gf_ext; vm_compute; reflexivity|reflexivity]. }
  assert (T : sprog stages (ex_two (F := F97)) <> None).
  { apply (C52_total F97 stages ex_two vs _ ex_two_generic eq_refl H). repeat constructor. }
  assert (Z : match sprog stages (ex_two (F := F97)) with Some (b, o) => Nat.leb (list_sum (map fst (sizes (orchestrate b o)))) 8 && Nat.ltb (list_sum (map snd (sizes (orchestrate b o)))) 32 && (length o =? 1) | None => false end = true)
    by (vm_compute; reflexivity).
  destruct (sprog stages (ex_two (F := F97))) as [[body outs]|] eqn:S; [|congruence]. exists body, outs. split; [reflexivity|].
  apply andb_true_iff in Z. destruct Z as [Z Z3]. apply andb_true_iff in Z. destruct Z as [Z1 Z2].
  apply Nat.leb_le in Z1. apply Nat.ltb_lt in Z2. apply Nat.eqb_eq in Z3.
  assert (Hf : fits 8 body outs) by (split; [exact Z1|exact Z2]).
  split; [exact Hf|]. split; [exact Z3|]. split; [exists [wir (l97 7)]; split; [exact H|reflexivity]|].
  destruct (C52_complete F97 8 stages ex_two body outs vs [wir (l97 7)] [l97 4; l97 6] ltac:(discriminate) ex_two_generic S Hf eq_refl H)
    as (rf & r & rs & _ & _ & _ & _ & _ & C & V & Ff & Fs & P).
  exists rf, r, rs. split; [exact C|]. split; [exact Ff|]. split; [exact Fs|]. split; [|exact P]. intros i Hi. now apply V.
Qed.
