(** Headers, encodings, registration (C36, C37, C44). *)
From Coq Require Import List Arith NArith ZArith Bool Lia.
From Verif Require Import FieldDef GF ModDef FFTModel RegModel ArithModel GadgetModel GadgetSpec GadgetProofs PcdModel PcdProofs2 AppModel AppSpec AppProofs.
Import ListNotations.
Local Open Scope nat_scope.

(** ** C36 *)
(** Distinct suffixes have distinct numbers; with overflow checks this holds for all
    suffixes, without them for the application suffixes that do not overflow. *)
Theorem C36_suffix : forall checks s s' v, suffix_ok s -> suffix_ok s' ->
  (checks = false -> forall i, s = SufApplication i \/ s' = SufApplication i -> (i + 2 < 2 ^ 64)%N) ->
  suffix_get checks s = Some v -> suffix_get checks s' = Some v -> s = s' /\
    match s with SufInternal i => v = i /\ (v < 2)%N | SufApplication i => v = (i + 2)%N /\ (2 <= v < 2 ^ 64)%N end.
Proof.
  intros checks s s' v O O' H G G'. unfold suffix_get, NUM_INTERNAL_SUFFIXES in *.
  assert (R : forall t, suffix_ok t -> (checks = false -> forall i, t = SufApplication i -> (i + 2 < 2 ^ 64)%N) ->
    match t with SufInternal i => Some i | SufApplication i => if N.ltb (i + 2) (2 ^ 64) then Some (i + 2)%N else if checks then None else Some ((i + 2) mod 2 ^ 64)%N end = Some v ->
    match t with SufInternal i => v = i /\ (v < 2)%N | SufApplication i => v = (i + 2)%N /\ (2 <= v < 2 ^ 64)%N end).
  { intros [i|i] Ot Ht Gt.
    - injection Gt as <-. cbn in Ot. auto.
    - destruct (N.ltb_spec (i + 2) (2 ^ 64)).
      + injection Gt as <-. split; [reflexivity|]. split; [|assumption]. apply N.le_add_l.
      + destruct checks; [discriminate|]. specialize (Ht eq_refl i eq_refl). exfalso. apply (N.lt_irrefl (2 ^ 64)). eapply N.le_lt_trans; eassumption. }
  assert (A := R s O (fun c i e => H c i (or_introl e)) G). assert (B := R s' O' (fun c i e => H c i (or_intror e)) G').
  split; [|exact A]. destruct s, s'; destruct A as (A1 & A2), B as (B1 & B2).
  - congruence.
  - destruct B2 as (B2 & _). exfalso. apply (N.lt_irrefl 2). eapply N.le_lt_trans; eassumption.
  - destruct A2 as (A2 & _). exfalso. apply (N.lt_irrefl 2). eapply N.le_lt_trans; eassumption.
  - f_equal. rewrite A1 in B1. apply N.add_cancel_r in B1. exact B1.
Qed.
Print Assumptions C36_suffix.

(** Without overflow checks the two largest application suffixes collide with the
    internal ones: the restriction in [C36_suffix] is needed. *)
Theorem C36_suffix_wrap_refuted :
  suffix_get false (suffix_new (2 ^ 64 - 1)) = suffix_get false trivial_suffix /\
  suffix_get false (suffix_new (2 ^ 64 - 2)) = suffix_get false (SufInternal 0) /\
  suffix_get true (suffix_new (2 ^ 64 - 1)) = None.
Proof. repeat split. Qed.
Print Assumptions C36_suffix_wrap_refuted.

(** Writing a padded header: the data, zeros, the suffix last, in all exactly the
    header size; too much data (or a zero header size) is an error. *)
Theorem C36_padded : forall (F : Field) hs (v : F) (data buf : list F),
  (forall r, holds (padded_write F F f1 false hs (Some v) (map wir data) (map wir buf)) r <-> length data < hs /\ r = map wir (buf ++ padded hs v data)) /\
  (forall st, simulate (padded_write F F f1 true hs (Some v) (map hon data) (map hon buf)) st
     = if length data <? hs then Some (map hon (buf ++ padded hs v data), st) else None) /\
  (length data < hs -> length (padded hs v data) = hs /\ nth (hs - 1) (padded hs v data) f0 = v /\
     (forall i, i < length data -> nth i (padded hs v data) f0 = nth i data f0) /\
     (forall i, length data <= i < hs - 1 -> nth i (padded hs v data) f0 = f0)).
Proof.
  intros F hs v data buf. split; [|split].
  - intros r. rewrite padded_w, map_app. reflexivity.
  - intros st. rewrite padded_s, map_app. reflexivity.
  - intros H. split; [apply padded_len; exact H|]. unfold padded. split; [|split].
    + rewrite app_assoc, app_nth2; rewrite app_length, repeat_length; [|lia]. replace (hs - 1 - _) with 0 by lia. reflexivity.
    + intros i Hi. rewrite app_nth1 by exact Hi. reflexivity.
    + intros i Hi. rewrite app_nth2 by lia. rewrite app_nth1 by (rewrite repeat_length; lia). apply nth_repeat.
Qed.
Print Assumptions C36_padded.

(** Equal encodings: the suffixes agree and the data agree up to trailing zeros; in
    particular data of the same length are equal. *)
Theorem C36_separates : forall (F : Field) hs (v v' : F) d d', length d < hs -> length d' < hs ->
  (padded hs v d = padded hs v' d' <->
     v = v' /\ firstn (Nat.min (length d) (length d')) d = firstn (Nat.min (length d) (length d')) d' /\
     Forall (fun x => x = f0) (skipn (length d') d) /\ Forall (fun x => x = f0) (skipn (length d) d')) /\
  (length d = length d' -> padded hs v d = padded hs v' d' -> v = v' /\ d = d').
Proof.
  intros F hs v v' d d' H H'.
  assert (K : forall (d d' : list F) m, length d < m -> length d' < m -> (d ++ repeat f0 (m - 1 - length d) = d' ++ repeat f0 (m - 1 - length d') <->
     firstn (Nat.min (length d) (length d')) d = firstn (Nat.min (length d) (length d')) d' /\
     Forall (fun x => x = f0) (skipn (length d') d) /\ Forall (fun x => x = f0) (skipn (length d) d'))).
  { clear. induction d as [|x d IH]; intros [|x' d'] m Hm Hm'; cbn [length app] in *.
    - split; [intros _; repeat split; constructor|reflexivity].
    - cbn [Nat.min firstn skipn]. rewrite Nat.sub_0_r. split.
      + intros E. split; [reflexivity|]. split; [constructor|]. assert (A : forall y, In y (repeat (f0 : F) (m - 1)) -> y = f0) by (intros y; apply repeat_spec).
        rewrite E in A. apply Forall_forall. intros y Hy. apply A. change (x' :: d' ++ repeat f0 (m - 1 - S (length d'))) with ((x' :: d') ++ repeat f0 (m - 1 - S (length d'))). apply in_or_app. auto.
      + intros (_ & _ & A). assert (B : x' :: d' = repeat f0 (S (length d'))).
        { change (S (length d')) with (length (x' :: d')). induction A as [|y l Hy A IHA]; [reflexivity|]. cbn [length repeat]. rewrite Hy. f_equal. exact IHA. }
        change (x' :: d' ++ repeat f0 (m - 1 - S (length d'))) with ((x' :: d') ++ repeat f0 (m - 1 - S (length d'))). rewrite B, <- repeat_app. f_equal. lia.
    - cbn [Nat.min firstn skipn]. rewrite Nat.sub_0_r. split.
      + intros E. split; [reflexivity|]. split; [|constructor]. assert (A : forall y, In y (repeat (f0 : F) (m - 1)) -> y = f0) by (intros y; apply repeat_spec).
        rewrite <- E in A. apply Forall_forall. intros y Hy. apply A. change (x :: d ++ repeat f0 (m - 1 - S (length d))) with ((x :: d) ++ repeat f0 (m - 1 - S (length d))). apply in_or_app. auto.
      + intros (_ & A & _). assert (B : x :: d = repeat f0 (S (length d))).
        { change (S (length d)) with (length (x :: d)). induction A as [|y l Hy A IHA]; [reflexivity|]. cbn [length repeat]. rewrite Hy. f_equal. exact IHA. }
        change (x :: d ++ repeat f0 (m - 1 - S (length d))) with ((x :: d) ++ repeat f0 (m - 1 - S (length d))). rewrite B, <- repeat_app. f_equal. lia.
    - cbn [Nat.min firstn skipn]. specialize (IH d' (m - 1) ltac:(lia) ltac:(lia)).
      replace (m - 1 - S (length d)) with (m - 1 - 1 - length d) by lia. replace (m - 1 - S (length d')) with (m - 1 - 1 - length d') by lia. split.
      + intros E. injection E as -> E. destruct (proj1 IH E) as (A & B). split; [f_equal; exact A|exact B].
      + intros (A & B). injection A as -> A. f_equal. apply IH. split; assumption. }
  split.
  - rewrite padded_inj by assumption. rewrite (K d d' hs H H'). reflexivity.
  - intros L E. apply padded_inj in E; try assumption. destruct E as (-> & E). split; [reflexivity|]. rewrite L in E. apply app_inv_tail in E. exact E.
Qed.
Print Assumptions C36_separates.

(** Headers of different suffix never encode equally, in a field where the numbers
    below 2^64 are distinct. *)
Theorem C36_types : forall (F : Field) (of_u : N -> F) hs s s' v v' d d',
  (forall a b, (a < 2 ^ 64)%N -> (b < 2 ^ 64)%N -> of_u a = of_u b -> a = b) ->
  suffix_ok s -> suffix_ok s' -> suffix_get true s = Some v -> suffix_get true s' = Some v' ->
  length d < hs -> length d' < hs -> padded hs (of_u v) d = padded hs (of_u v') d' -> s = s'.
Proof.
  intros F of_u hs s s' v v' d d' INJ O O' G G' H H' E. apply padded_inj in E; try assumption. destruct E as (E & _).
  assert (R : forall t w, suffix_ok t -> suffix_get true t = Some w -> (w < 2 ^ 64)%N).
  { intros [i|i] w Ot Gt; cbn [suffix_get] in Gt.
    - injection Gt as <-. cbn in Ot. eapply N.lt_trans; [exact Ot|reflexivity].
    - destruct (N.ltb_spec (i + NUM_INTERNAL_SUFFIXES) (2 ^ 64)); [congruence|discriminate]. }
  apply (INJ v v' (R _ _ O G) (R _ _ O' G')) in E. subst v'.
  exact (proj1 (C36_suffix true s s' v O O' ltac:(discriminate) G G')).
Qed.
Print Assumptions C36_types.

Example C36_ex : suffix_get true (suffix_new 50) = Some 52%N /\
  map v97 (padded 6 (l97 42) (map l97 [1; 2; 3; 4]%Z)) = [1; 2; 3; 4; 0; 42]%Z /\
  match simulate (padded_write F97 F97 f1 true 6 (Some (l97 42)) (map hon (map l97 [1; 2; 3; 4]%Z)) []) (mk_simst 0 0 0) with
  | Some (l, _) => map (fun e => v97 (ew _ _ e)) l = [1; 2; 3; 4; 0; 42]%Z | None => False end /\
  match simulate (padded_write F97 F97 f1 true 4 (Some (l97 42)) (map hon (map l97 [1; 2; 3; 4]%Z)) []) (mk_simst 0 0 0) with Some _ => False | None => True end.
Proof. split; [reflexivity|]. split; [vm_compute; reflexivity|]. split; [vm_compute; reflexivity|]. vm_compute. exact Logic.I. Qed.

(** ** C44: the adapter and the internal steps *)
(** The output wires of a step are its three padded headers in order. *)
Theorem C44_adapter : forall (F : Field) hs (vl vr vo : F) dl dr do,
  (forall r, holds (adapter_write F F f1 false hs (Some vl) (Some vr) (Some vo) (EncGadget (map wir dl)) (EncGadget (map wir dr)) (EncGadget (map wir do))) r <->
     (length dl < hs /\ length dr < hs /\ length do < hs) /\ r = map wir (padded hs vl dl ++ padded hs vr dr ++ padded hs vo do)) /\
  (length dl < hs -> length dr < hs -> length do < hs -> forall st,
     simulate (adapter_write F F f1 true hs (Some vl) (Some vr) (Some vo) (EncGadget (map hon dl)) (EncGadget (map hon dr)) (EncGadget (map hon do))) st
     = Some (map hon (padded hs vl dl ++ padded hs vr dr ++ padded hs vo do), st)).
Proof. intros F hs vl vr vo dl dr do. split; [intros r; apply adapter_gadgets_w|intros L1 L2 L3 st; apply adapter_gadgets_s; assumption]. Qed.
Print Assumptions C44_adapter.

(** Rerandomization: the circuit is the same for every header that fits; it is
    satisfied exactly by an arbitrary left header, the trivial right header and an
    output header equal to the left one; the honest run outputs the given header. *)
Theorem C44_rerandomize : forall (F : Field) hs (v t : F) data, length data < hs ->
  (forall v' data', length data' < hs ->
     rerandomize_circuit F F f1 false hs (Some v) (Some t) data = rerandomize_circuit F F f1 false hs (Some v') (Some t) data') /\
  (forall r, holds (rerandomize_circuit F F f1 false hs (Some v) (Some t) data) r <->
     exists h, length h = hs /\ r = map wir (h ++ padded hs t [] ++ h)) /\
  (forall st, simulate (rerandomize_circuit F F f1 true hs (Some v) (Some t) data) st
     = Some (map hon (padded hs v data ++ padded hs t [] ++ padded hs v data), bump st hs 0 0)).
Proof.
  intros F hs v t data H.
  assert (U : forall v' data', length data' < hs -> rerandomize_circuit F F f1 false hs (Some v') (Some t) data'
     = gbind (gbind (alloc_all F F (repeat None hs)) (fun l => if length l =? hs then GRet l else GErr))
         (fun l => gbind (padded_write F F f1 false hs (Some t) [] l) (fun b => if length (b ++ l) =? hs * 3 then GRet (b ++ l) else GErr))).
  { intros v' data' H'. unfold rerandomize_circuit, new_uniform. rewrite emulated_ok, (proj2 (Nat.ltb_lt _ _) H'). rewrite map_none, padded_len by exact H'. reflexivity. }
  split; [|split].
  - intros v' data' H'. rewrite (U v data H), (U v' data' H'). reflexivity.
  - intros r. rewrite (U v data H). split.
    + intros K. apply holds_bind in K. destruct K as (l & K1 & K2). apply holds_bind in K1. destruct K1 as (l' & K1 & K3).
      apply alloc_all_w in K1. destruct K1 as (h & L & ->). destruct (_ =? _) in K3; [|destruct K3]. apply ret_w in K3. subst l.
      apply holds_bind in K2. destruct K2 as (b & K2 & K4). change (@nil (elem F F)) with (map (@wir F) []) in K2. apply padded_w in K2. destruct K2 as (_ & ->).
      destruct (_ =? _) in K4; [|destruct K4]. apply ret_w in K4. exists h. split; [exact L|]. rewrite K4, !map_app, <- app_assoc. reflexivity.
    + intros (h & L & ->). apply holds_bind. exists (map wir h). split.
      * apply holds_bind. exists (map wir h). split; [apply alloc_all_w; eauto|]. rewrite map_length, L, Nat.eqb_refl. apply ret_w. reflexivity.
      * apply holds_bind. exists (map wir h ++ map wir (padded hs t [])). split; [change (@nil (elem F F)) with (map (@wir F) []); apply padded_w; split; [cbn; lia|reflexivity]|].
        rewrite !app_length, !map_length, padded_len, L by (cbn; lia). replace (hs + hs + hs =? hs * 3) with true by (symmetry; apply Nat.eqb_eq; lia).
        apply ret_w. rewrite !map_app, <- app_assoc. reflexivity.
  - intros st. unfold rerandomize_circuit, new_uniform. rewrite emulated_ok, (proj2 (Nat.ltb_lt _ _) H). rewrite sim_bind, sim_bind, alloc_all_s.
    rewrite map_length, padded_len, Nat.eqb_refl by exact H. cbn [simulate]. unfold adapter_write, encoded_write. rewrite sim_bind. cbn [simulate app].
    rewrite sim_bind. change (@nil (elem F F)) with (map (@hon F) []). rewrite padded_s, (proj2 (Nat.ltb_lt (length []) hs)) by (cbn; lia).
    rewrite sim_bind. cbn [simulate]. rewrite !app_length, !map_length, !padded_len by (cbn; lia). replace (hs + hs + hs =? hs * 3) with true by (symmetry; apply Nat.eqb_eq; lia).
    cbn [simulate]. rewrite !map_app, <- app_assoc. reflexivity.
Qed.
Print Assumptions C44_rerandomize.

(** The trivial step outputs three trivial headers and has no freedom; a header is
    recognised as trivial by its last element exactly when its suffix is the trivial
    one. *)
Theorem C44_trivial : forall (F : Field) (of_u : N -> F) hs, 0 < hs ->
  (forall r, holds (trivial_circuit F F f1 false hs (Some (of_u 1%N))) r <-> r = map wir (padded hs (of_u 1%N) [] ++ padded hs (of_u 1%N) [] ++ padded hs (of_u 1%N) [])) /\
  (forall st, simulate (trivial_circuit F F f1 true hs (Some (of_u 1%N))) st
     = Some (map hon (padded hs (of_u 1%N) [] ++ padded hs (of_u 1%N) [] ++ padded hs (of_u 1%N) []), st)) /\
  ((forall a b, (a < 2 ^ 64)%N -> (b < 2 ^ 64)%N -> of_u a = of_u b -> a = b) ->
   forall s v d, suffix_ok s -> suffix_get true s = Some v -> length d < hs ->
     (nth (hs - 1) (padded hs (of_u v) d) f0 = of_u 1%N <-> s = trivial_suffix)).
Proof.
  intros F of_u hs H. split; [|split].
  - intros r. unfold trivial_circuit. change (@nil (elem F F)) with (map (@wir F) []). rewrite adapter_gadgets_w. cbn [length]. tauto.
  - intros st. unfold trivial_circuit. change (@nil (elem F F)) with (map (@hon F) []). apply adapter_gadgets_s; cbn; lia.
  - intros INJ s v d O G L. destruct (C36_padded F hs (of_u v) d []) as (_ & _ & P). destruct (P L) as (_ & E & _). rewrite E.
    assert (R : (v < 2 ^ 64)%N).
    { destruct s as [i|i]; cbn [suffix_get] in G.
      - injection G as <-. cbn in O. eapply N.lt_trans; [exact O|reflexivity].
      - destruct (N.ltb_spec (i + NUM_INTERNAL_SUFFIXES) (2 ^ 64)); [congruence|discriminate]. }
    split.
    + intros K. apply INJ in K; [|exact R|reflexivity]. subst v. exact (proj1 (C36_suffix true s trivial_suffix 1 O eq_refl ltac:(discriminate) G eq_refl)).
    + intros ->. cbn in G. injection G as <-. reflexivity.
Qed.
Print Assumptions C44_trivial.

Example C44_ex :
  match simulate (rerandomize_circuit F97 F97 f1 true 3 (Some (l97 9)) (Some (l97 1)) [l97 5]) (mk_simst 0 0 0) with
  | Some (l, s) => map (fun e => v97 (ew _ _ e)) l = [5; 0; 9; 0; 0; 1; 5; 0; 9]%Z /\ num_allocations s = 3 | None => False end.
Proof. vm_compute. split; reflexivity. Qed.

(** ** C37 *)
(** Registering a list of steps from an empty builder succeeds exactly when the steps
    carry the indices 0, 1, .. in order, every circuit could be built, and no two
    headers among them share a suffix but not a type; the application circuits are
    then the steps' circuits in order. *)
Theorem C37_register : forall (F Fs : Field) (l : list (step F)),
  (register_steps F Fs (ab_new F Fs) l <> None <->
     (forall i s, nth_error l i = Some s -> st_index s = StApplication i /\ st_obj s <> None) /\
     consistent (flat_map step_headers l)) /\
  (forall b, register_steps F Fs (ab_new F Fs) l = Some b ->
     ab_steps b = length l /\ map Some (rb_app F (ab_native b)) = map st_obj l).
Proof.
  intros F Fs l. destruct (steps_ok F Fs l _ _ (new_ok F Fs)) as (P & Q). cbn [app length Nat.add] in *. split.
  - rewrite Q. split; intros (A & B); (split; [exact A|]).
    + destruct l; [intros h h' []|]. apply B. discriminate.
    + intros _. exact B.
  - intros b E. destruct (P b E) as (A & _ & _ & _ & _ & N & _). auto.
Qed.
Print Assumptions C37_register.

(** The object that belongs to a place. *)
Definition place_obj {F : Field} (l : list (step F)) (iobj : icid -> option (cobj F)) (sobj : istep -> option (cobj F)) (p : place) : option (cobj F) :=
  match p with PCircuit id => iobj id | PStep i => sobj i | PApp i => match nth_error l i with Some s => st_obj s | None => None end end.

(** Finalisation fails only if some circuit cannot be built (the count assertions
    never fail); every internal circuit, internal step and application step then has
    its own index, the indices are exactly those below the number of circuits, and the
    finished registry has the right object at each. *)
Theorem C37_slots : forall (F Fs : Field) (l : list (step F)) b nsteps (iobj : nat -> icid -> option (cobj F)) sobj (nobj : ncid -> option (cobj Fs)),
  register_steps F Fs (ab_new F Fs) l = Some b ->
  let n := length l in let io := iobj (Nat.log2_up (n + 15)) in
  (app_finalize F Fs nsteps iobj sobj nobj b <> None <->
     (forall id, io id <> None) /\ (forall i, sobj i <> None) /\ (forall id, In id (ncid_all nsteps) -> nobj id <> None)) /\
  forall nb sb, app_finalize F Fs nsteps iobj sobj nobj b = Some (nb, sb) ->
    num_circuits F nb = n + 15 /\
    forall (T : TwoAdic F) lg repr hash to_bytes from_uniform f_of_u64 r, (ta_S T <= 32) ->
    finalize F T lg repr hash to_bytes from_uniform f_of_u64 nb = Some r ->
    (forall p, place_ok n p -> exists i, place_index n p = Some i /\ i < n + 15 /\
       nth_error (rg_circuits F r) i = place_obj l io sobj p /\ place_obj l io sobj p <> None) /\
    (forall p p' i, place_ok n p -> place_ok n p' -> place_index n p = Some i -> place_index n p' = Some i -> p = p') /\
    (forall i, i < n + 15 -> exists p, place_ok n p /\ place_index n p = Some i) /\
    (forall i, n <= i -> place_index n (PApp i) = None).
Proof.
  intros F Fs l b nsteps iobj sobj nobj Hb n io.
  destruct (steps_ok F Fs l _ _ (new_ok F Fs)) as (P & _). specialize (P b Hb). cbn [app] in P. destruct P as (A & I & B & St & Ne & N & _).
  fold n in N. unfold app_finalize, total_circuit_counts. rewrite N. unfold NUM_INTERNAL_STEPS, NUM_INTERNAL_CIRCUITS.
  replace (n + 2 + 13) with (n + 15) by lia. fold io.
  unfold native_register_all. rewrite (proj2 (native_fold F io icid_all (ab_native b))).
  unfold nested_register_all. rewrite nested_fold. destruct (filter_steps nsteps) as (FS1 & FS2). rewrite FS1, FS2.
  rewrite I, B, St, Ne. cbn [app].
  set (cs := filter (fun i => negb (is_mask i)) icid_all). set (ms := filter is_mask icid_all).
  assert (Ecs : cs = firstn 5 icid_all) by reflexivity. assert (Ems : ms = skipn 5 icid_all) by reflexivity.
  set (ns := map NStep (seq 0 nsteps)). set (nm := [NEndoscalar; NPoints; NPointsFinal; NBridgePreamble; NBridgeSPrime; NBridgeInnerError; NBridgeOuterError; NBridgeAB; NBridgeQuery; NBridgeF; NBridgeEval]).
  assert (Eall : ncid_all nsteps = ns ++ nm) by reflexivity.
  assert (LA : length (rb_app F (ab_native b)) = n) by (rewrite <- (map_length Some), A, map_length; reflexivity).
  assert (IA : (objs io cs <> None /\ objs io ms <> None) <-> forall id, io id <> None).
  { rewrite !objs_some. split.
    - intros (X & Y) id. destruct (is_mask id) eqn:E; [apply Y|apply X]; destruct id; try discriminate E; cbn; tauto.
    - intros X. split; intros id _; apply X. }
  assert (IN : (objs nobj ns <> None /\ objs nobj nm <> None) <-> forall id, In id (ncid_all nsteps) -> nobj id <> None).
  { rewrite !objs_some, Eall. split.
    - intros (X & Y) id Hi. apply in_app_or in Hi. destruct Hi; auto.
    - intros X. split; intros id Hi; apply X; apply in_or_app; auto. }
  assert (IS : (sobj IRerandomize <> None /\ sobj ITrivial <> None) <-> forall i, sobj i <> None).
  { split; [intros (X & Y) []; auto|auto]. }
  rewrite <- IA, <- IN, <- IS.
  destruct (objs io cs) as [oc|] eqn:Eoc; cbn [obind]; [|split; [split; [congruence|intros ((X & _) & _); congruence]|discriminate]].
  destruct (objs io ms) as [om|] eqn:Eom; cbn [obind]; [|split; [split; [congruence|intros ((_ & X) & _); congruence]|discriminate]].
  pose proof (objs_len _ _ _ Eoc) as Loc. pose proof (objs_len _ _ _ Eom) as Lom. change (length cs) with 5 in Loc. change (length ms) with 8 in Lom.
  unfold num_internal_circuits. cbn [rb_internal rb_bonding]. rewrite I, B, Loc, Lom. change NUM_INTERNAL_CIRCUITS with 13. cbn [length Nat.add Nat.eqb obind].
  destruct (sobj IRerandomize) as [o1|] eqn:E1; cbn [obind]; [|split; [split; [congruence|intros (_ & (X & _) & _); congruence]|discriminate]].
  destruct (sobj ITrivial) as [o2|] eqn:E2; cbn [obind]; [|split; [split; [congruence|intros (_ & (_ & X) & _); congruence]|discriminate]].
  unfold register_internal_step. cbn [rb_internal rb_bonding rb_steps rb_app app].
  unfold log2_circuits, num_circuits, num_internal_circuits. cbn [rb_internal rb_bonding rb_steps rb_app].
  rewrite Loc, Lom, LA. cbn [length]. replace (8 + 5 + 2 + n) with (n + 15) by lia. rewrite !Nat.eqb_refl. cbn [negb].
  destruct (objs nobj ns) as [on|] eqn:Eon; cbn [obind]; [|split; [split; [congruence|intros (_ & _ & (X & _)); congruence]|discriminate]].
  destruct (objs nobj nm) as [onm|] eqn:Eonm; cbn [obind]; [|split; [split; [congruence|intros (_ & _ & (_ & X)); congruence]|discriminate]].
  cbn [rb_internal rb_bonding rb_new length]. pose proof (objs_len _ _ _ Eon) as Lon. pose proof (objs_len _ _ _ Eonm) as Lonm. unfold ns in Lon. rewrite map_length, seq_length in Lon. change (length nm) with 11 in Lonm.
  cbn [app]. rewrite Lon, Lonm. cbn [length]. replace (11 + nsteps =? 0 + 0 + (nsteps + 11)) with true by (symmetry; apply Nat.eqb_eq; lia). cbn [obind].
  split; [split; [intros _; repeat split; discriminate|discriminate]|].
  intros nb sb H. injection H as <- <-. cbn [rb_internal rb_bonding rb_steps rb_app]. rewrite Loc, Lom, LA. cbn [length]. split; [lia|].
  intros T lg repr hash to_bytes from_uniform f_of_u64 r S32 FIN.
  assert (ER : rg_circuits F r = oc ++ om ++ [o1; o2] ++ rb_app F (ab_native b) /\ Nat.log2_up (n + 15) <= ta_S T).
  { unfold finalize in FIN. destruct (_ <? _) in FIN; [discriminate|]. unfold log2_circuits, num_circuits, num_internal_circuits in FIN. cbn [rb_internal rb_bonding rb_steps rb_app] in FIN.
    rewrite Loc, Lom, LA in FIN. cbn [length] in FIN. replace (8 + 5 + 2 + n) with (n + 15) in FIN by lia.
    unfold domain_new in FIN. destruct (Nat.leb_spec (Nat.log2_up (n + 15)) (ta_S T)) as [K|K]; [|discriminate].
    split; [|exact K]. destruct (halve_times _ _) in FIN; [|discriminate]. destruct (_ =? _) in FIN; [|discriminate]. cbn [obind] in FIN.
    destruct (compute_registry_digest _ _ _ _ _ _ _ _) in FIN; [|discriminate]. cbn [obind] in FIN. injection FIN as <-. reflexivity. }
  destruct ER as (ER & K).
  assert (B32 : forall i, i < n + 15 -> circuit_index_new i = Some i).
  { intros i Hi. unfold circuit_index_new. destruct (N.ltb_spec (N.of_nat i) (2 ^ 32)) as [L|L]; [reflexivity|]. exfalso.
    assert (n + 15 <= 2 ^ Nat.log2_up (n + 15)) by (apply Nat.log2_log2_up_spec; lia).
    assert (2 ^ Nat.log2_up (n + 15) <= 2 ^ 32) by (apply Nat.pow_le_mono_r; lia).
    assert (N.of_nat i < N.of_nat (2 ^ 32))%N by lia. rewrite Nat2N.inj_pow in H1. change (N.of_nat 2 ^ N.of_nat 32)%N with (2 ^ 32)%N in H1.
    apply (N.lt_irrefl (N.of_nat i)). eapply N.lt_le_trans; eassumption. }
  assert (PI : forall p i, place_ok n p -> (place_index n p = Some i <-> i = match p with PCircuit id => PcdSpec.internal_index id | PStep s => 13 + istep_num s | PApp j => 15 + j end)).
  { intros [id|s|j] i O; cbn [place_index step_circuit_index].
    - rewrite index_internal. split; congruence.
    - split; [intros H; injection H as <-; reflexivity|intros ->; reflexivity].
    - cbn in O. destruct (Nat.leb_spec n j); [lia|]. unfold NUM_INTERNAL_STEPS, NUM_INTERNAL_CIRCUITS. rewrite B32 by lia. split; [intros H'; injection H' as <-; lia|intros ->; f_equal; lia]. }
  split; [|split; [|split]].
  - intros p O. eexists. split; [apply PI; [exact O|reflexivity]|]. destruct p as [id|s|j]; cbn [place_obj].
    + split; [pose proof (internal_lt id); lia|]. assert (NZ : io id <> None) by (apply IA; split; congruence). split; [|exact NZ].
      rewrite ER, app_assoc. rewrite nth_error_app1 by (rewrite app_length, Loc, Lom; apply internal_lt).
      assert (OA : objs io icid_all = Some (oc ++ om)).
      { apply objs_map. rewrite map_app. apply objs_map in Eoc, Eom. rewrite <- Eoc, <- Eom, Ecs, Ems, <- map_app, firstn_skipn. reflexivity. }
      apply (objs_nth _ _ _ _ _ OA). destruct id; reflexivity.
    + split; [destruct s; cbn; lia|]. rewrite ER, app_assoc, nth_error_app2 by (rewrite app_length, Loc, Lom; lia). rewrite app_length, Loc, Lom.
      destruct s; cbn [istep_num Nat.add Nat.sub nth_error app]; rewrite ?E1, ?E2; split; congruence.
    + cbn in O. split; [lia|]. rewrite ER, app_assoc, nth_error_app2 by (rewrite app_length, Loc, Lom; lia). rewrite app_length, Loc, Lom.
      replace (15 + j - (5 + 8)) with (S (S j)) by lia. cbn [app nth_error].
      apply (f_equal (fun q => nth_error q j)) in A. rewrite !nth_error_map in A.
      destruct (nth_error l j) as [s|] eqn:Ej; [|apply nth_error_None in Ej; unfold n in O; lia]. cbn [option_map] in A.
      destruct (nth_error (rb_app F (ab_native b)) j); cbn in A; [|discriminate]. injection A as A. rewrite <- A. split; congruence.
  - intros p p' i O O' X X'. apply PI in X, X'; try assumption. subst i.
    destruct p as [id|s|j], p' as [id'|s'|j']; try (pose proof (internal_lt id)); try (pose proof (internal_lt id')); try (destruct s; cbn [istep_num] in X'); try (destruct s'; cbn [istep_num] in X'); try lia; try reflexivity.
    + destruct id, id'; cbn in X'; try lia; reflexivity.
    + f_equal. lia.
  - intros i Hi. destruct (Nat.lt_ge_cases i 13) as [L|L].
    + exists (PCircuit (nth i icid_all Hashes1Circuit)). split; [exact Logic.I|]. apply PI; [exact Logic.I|]. do 13 (destruct i as [|i]; [reflexivity|]). lia.
    + destruct (Nat.eq_dec i 13) as [->|]; [exists (PStep IRerandomize); split; [exact Logic.I|apply PI; [exact Logic.I|reflexivity]]|].
      destruct (Nat.eq_dec i 14) as [->|]; [exists (PStep ITrivial); split; [exact Logic.I|apply PI; [exact Logic.I|reflexivity]]|].
      exists (PApp (i - 15)). split; [cbn; lia|]. apply PI; [cbn; lia|lia].
  - intros i Hi. cbn [place_index step_circuit_index]. apply Nat.leb_le in Hi. rewrite Hi. reflexivity.
Qed.
Print Assumptions C37_slots.

(** The nested registry: each internal circuit's index is its position and its object
    is found there. *)
Theorem C37_nested : forall (Fs : Field) nsteps (nobj : ncid -> option (cobj Fs)) sb,
  (N.of_nat (nsteps + 11) < 2 ^ 32)%N ->
  nested_register_all Fs nsteps nobj (rb_new Fs) = Some sb ->
  let circuits := rb_internal Fs sb ++ rb_bonding Fs sb ++ rb_steps Fs sb ++ rb_app Fs sb in
  length circuits = nsteps + 11 /\
  (forall id, In id (ncid_all nsteps) -> exists i, nested_circuit_index nsteps id = Some i /\ nth_error circuits i = nobj id /\ nobj id <> None) /\
  (forall id id' i, nested_circuit_index nsteps id = Some i -> nested_circuit_index nsteps id' = Some i -> id = id').
Proof.
  intros Fs nsteps nobj sb B. unfold nested_register_all. rewrite nested_fold. destruct (filter_steps nsteps) as (FS1 & FS2). rewrite FS1, FS2.
  cbn [rb_new rb_internal rb_bonding rb_steps rb_app app].
  set (ns := map NStep (seq 0 nsteps)). set (nm := [NEndoscalar; NPoints; NPointsFinal; NBridgePreamble; NBridgeSPrime; NBridgeInnerError; NBridgeOuterError; NBridgeAB; NBridgeQuery; NBridgeF; NBridgeEval]).
  assert (Eall : ncid_all nsteps = ns ++ nm) by reflexivity.
  destruct (objs nobj ns) as [on|] eqn:Eon; cbn [obind]; [|discriminate]. destruct (objs nobj nm) as [onm|] eqn:Eonm; cbn [obind]; [|discriminate].
  destruct (_ =? _); [|discriminate]. intros E. injection E as <-. cbn [rb_internal rb_bonding rb_steps rb_app app]. rewrite !app_nil_r.
  assert (OA : objs nobj (ncid_all nsteps) = Some (on ++ onm)).
  { apply objs_map. rewrite Eall, !map_app. apply objs_map in Eon, Eonm. congruence. }
  assert (LA : length (ncid_all nsteps) = nsteps + 11) by (rewrite Eall, app_length; unfold ns; rewrite map_length, seq_length; reflexivity).
  assert (PX : forall id i, nested_circuit_index nsteps id = Some i <-> nth_error (ncid_all nsteps) i = Some id).
  { intros id i. unfold nested_circuit_index. pose proof (position_ok ncid_eqb ncid_eqb_eq (ncid_all nsteps) id) as PO.
    destruct (position (ncid_eqb id) (ncid_all nsteps)) as [j|] eqn:Ep; cbn [obind].
    - assert (Ej : nth_error (ncid_all nsteps) j = Some id) by (apply PO; [apply ncid_nodup|reflexivity]).
      assert (j < nsteps + 11) by (rewrite <- LA; apply nth_error_Some; congruence).
      unfold circuit_index_new. destruct (N.ltb_spec (N.of_nat j) (2 ^ 32)) as [L|L].
      + rewrite <- (PO i (ncid_nodup nsteps)). reflexivity.
      + exfalso. apply (N.lt_irrefl (N.of_nat j)). eapply N.lt_le_trans; [|exact L]. eapply N.lt_trans; [|exact B]. lia.
    - rewrite <- (PO i (ncid_nodup nsteps)). split; discriminate. }
  split; [rewrite (objs_len _ _ _ OA); exact LA|]. split.
  - intros id Hi. apply In_nth_error in Hi. destruct Hi as (i & Ei). exists i. split; [apply PX; exact Ei|]. split; [apply (objs_nth _ _ _ _ _ OA); exact Ei|].
    apply (proj1 (objs_some nobj (ncid_all nsteps))); [congruence|]. eapply nth_error_In. exact Ei.
  - intros id id' i X X'. apply PX in X, X'. congruence.
Qed.
Print Assumptions C37_nested.

(** The duplicate check covers only headers named by application steps: a header type
    that reuses the suffix of the trivial header (type 0 here) is accepted as long as
    no registered step names the trivial header itself, although the internal steps
    use it. *)
Theorem C37_trivial_suffix_refuted : forall (F Fs : Field) (o : cobj F), exists s : step F,
  st_left s = mk_header trivial_suffix 7 /\ register_steps F Fs (ab_new F Fs) [s] <> None /\
  ~ consistent (mk_header trivial_suffix 0 :: step_headers s).
Proof.
  intros F Fs o. exists (mk_step (StApplication 0) (mk_header trivial_suffix 7) (mk_header trivial_suffix 7) (mk_header trivial_suffix 7) (Some o)).
  split; [reflexivity|]. split; [discriminate|]. intros C.
  assert (X : 0 = 7) by (apply (C (mk_header trivial_suffix 0) (mk_header trivial_suffix 7)); cbn; auto). discriminate.
Qed.
Print Assumptions C37_trivial_suffix_refuted.

(** two steps in order are accepted; out of order or with a clashing suffix they are
    not *)
Definition ex_obj : cobj F97 := mk_cobj F97 (fun _ _ _ => None) (fun _ _ => None) (fun _ _ => None) [].
Definition ex_hdr (s : N) (t : nat) := mk_header (suffix_new s) t.
Definition ex_stp i l r o : step F97 := mk_step (StApplication i) l r o (Some ex_obj).
Definition registered (l : list (step F97)) : bool := match register_steps F97 F97 (ab_new F97 F97) l with Some _ => true | None => false end.
Example C37_ex :
  let triv := mk_header trivial_suffix 0 in
  registered [ex_stp 0 triv triv (ex_hdr 0 1); ex_stp 1 (ex_hdr 0 1) triv (ex_hdr 1 2)] = true /\
  registered [ex_stp 1 triv triv (ex_hdr 0 1)] = false /\
  registered [ex_stp 0 triv triv (ex_hdr 0 1); ex_stp 1 (ex_hdr 0 2) triv (ex_hdr 1 2)] = false /\
  step_circuit_index (StApplication 1) 2 = Some 16 /\ step_circuit_index (StApplication 2) 2 = None /\ nested_circuit_index 9 NPointsFinal = Some 11.
Proof. repeat split. Qed.
