(** Property theorems C68 (crate ragu_macros: substitution in types and generic parameters). *)
From Coq Require Import List Arith NArith Bool String.
From Verif Require Import MacroModel MacroSpec MacroProofs.
Import ListNotations.
Local Open Scope string_scope.
Local Open Scope list_scope.

(** ** What [Kind!] writes means the given type with [_] read as PhantomData of the field type
    and ['_] as ['static]. *)
Theorem C68_inferences : forall (V : Type) (M : meaning V) (field t : ty), infer_open t = true ->
  den M plain (replace_inferences field t) = den (reading M (den M plain (phantom field)) to_static) plain t.
Proof.
  intros V M field t H.
  refine (proj1 (sub_den V M (inference_strategy field) (Some (phantom field)) (false, QNone, snil) (fun s => String.eqb s "_")
    (fun _ _ _ => false) (fun _ _ _ => false) _ _ to_static _ _ _) t H).
  - intros []; reflexivity.
  - reflexivity.
  - intros s. unfold sub_lt, to_static. cbn. destruct (String.eqb s "_"); reflexivity.
  - intros s E. unfold to_static. rewrite E. reflexivity.
  - discriminate.
Qed.
Print Assumptions C68_inferences.

(** ** No placeholder is left, and a type without placeholders stays as it is. *)
Theorem C68_complete : forall (field t : ty),
  (no_infer field = true -> infer_open t = true -> no_infer (replace_inferences field t) = true) /\
  (no_infer t = true -> replace_inferences field t = t).
Proof.
  intros field t. split.
  - intros Hf H.
    refine (proj1 (clean_sub (inference_strategy field) (Some (phantom field)) (false, QNone, snil) (fun s => String.eqb s "_")
      (fun _ _ _ => false) (fun _ _ _ => false) _ _ _ _ _ _) t H).
    + intros []; reflexivity.
    + reflexivity.
    + intros r E. injection E as <-. unfold phantom. simpl. unfold no_infer in Hf. rewrite Hf. reflexivity.
    + reflexivity.
    + intros s. unfold sub_lt. cbn. destruct (String.eqb s "_") eqn:E; [reflexivity|exact E].
    + reflexivity.
  - intros H.
    refine (proj1 (sub_clean (inference_strategy field) (Some (phantom field)) (false, QNone, snil) (fun s => String.eqb s "_")
      (fun _ _ _ => false) _ _ _) t H).
    + intros []; reflexivity.
    + reflexivity.
    + intros s E. unfold sub_lt. cbn. rewrite E. reflexivity.
Qed.
Print Assumptions C68_complete.

(** ** [Kind!]: without placeholders; with [@] the type as read, otherwise the [Kind] of the type
    as read, of the trait [Gadget] at 'static and PhantomData of the field type. *)
Lemma app_clean hi hl hp a b : clean_segs hi hl hp (segs_app a b) = clean_segs hi hl hp a && clean_segs hi hl hp b.
Proof. induction a as [|i x r IH]; [reflexivity|]. simpl. rewrite IH, andb_assoc. reflexivity. Qed.
Lemma app_list a b : seg_list (segs_app a b) = seg_list a ++ seg_list b.
Proof. induction a as [|i x r IH]; [reflexivity|]. cbn. rewrite IH. reflexivity. Qed.
Lemma len_list a : segs_len a = List.length (seg_list a).
Proof. induction a as [|i x r IH]; [reflexivity|]. cbn. f_equal. exact IH. Qed.
Theorem C68_macro : forall (V : Type) (M : meaning V) (core : segs) (f t : ty), infer_open t = true ->
  let v := den (reading M (den M plain (phantom f)) to_static) plain t in
  (forall cast, no_infer f = true -> clean_segs true (fun s => String.eqb s "_") (fun _ _ _ => false) core = true ->
     no_infer (kind_macro core f cast t) = true) /\
  den M plain (kind_macro core f true t) = v /\
  exists n p, den M plain (kind_macro core f false t) = me_path V M true (me_qas V M v n) (den_segs M plain p) /\
    seg_list p = seg_list core ++ [("gadgets", PANone); ("Gadget", PAAngle (acons (ALife "static") (acons (AType (phantom f)) anil))); ("Kind", PANone)] /\
    List.length (seg_list p) = S n.
Proof.
  intros V M core f t H v. assert (E : den M plain (replace_inferences f t) = v) by (apply C68_inferences, H). split; [|split].
  - intros cast Hf Hc. assert (Q := proj1 (C68_complete f t) Hf H). unfold kind_macro. destruct cast; [exact Q|].
    unfold no_infer in *. simpl. rewrite Q, app_clean, Hc. simpl. rewrite Hf. reflexivity.
  - exact E.
  - eexists (segs_len core + 2), _. unfold kind_macro. simpl. rewrite E. split; [reflexivity|]. rewrite app_list. split; [reflexivity|].
    rewrite app_length, len_list. cbn. rewrite !Nat.add_succ_r. reflexivity.
Qed.
Print Assumptions C68_macro.

(** ** Placeholders inside references, arrays and other types, or before [as], are not seen. *)
Theorem C68_inside_refuted : exists t t' t'' : ty,
  t = TOther 1 [] (tcons TInfer tnil) /\ t' = TOther 2 ["_"] (tcons (ident_ty "T") tnil) /\
  t'' = TPath false (QAs TInfer 1) (scons "X" PANone (scons "Y" PANone snil)) /\
  forall field, replace_inferences field t = t /\ replace_inferences field t' = t' /\ replace_inferences field t'' = t'' /\
    no_infer t = false /\ no_infer t' = false /\ no_infer t'' = false.
Proof. do 3 eexists. do 3 (split; [reflexivity|]). intros field. repeat split. Qed.
Print Assumptions C68_inside_refuted.

(** ** In the parameters of the [GadgetKind] impl, D::F means what DriverField means; the rest
    of the bounds and the default is as given. *)
Theorem C68_driver_field : forall (V : Type) (M : meaning V) (d df : string) at_ i (b : bounds) (def : option ty),
  let known := field_known d (den M plain (ident_ty df)) in
  exists b' def', replace_driver_field_in_generic_param d df (GPType at_ i b def) = GPType at_ i b' def' /\
  (field_open_bounds d b = true -> den_bounds M plain b' = den_bounds M known b) /\
  (forall t, def = Some t -> field_open d t = true -> option_map (den M plain) def' = Some (den M known t)) /\
  (field_open_bounds d b = true -> clean_bounds false (fun _ => false) (like_field d) b' = true).
Proof.
  intros V M d df at_ i b def known.
  assert (S := sub_den V M (driver_strategy d df) None (false, QNone, ident_path df) (fun _ => false) (like_field d) (exact_field d)
    ltac:(intros []; reflexivity) ltac:(reflexivity) (fun s => s) ltac:(reflexivity) ltac:(reflexivity) (exact_like d)).
  cbv zeta in S. cbn [MacroSpec.den] in S.
  exists (sub_bounds (driver_strategy d df) b), (option_map (sub_ty (driver_strategy d df)) def).
  split; [reflexivity|]. rewrite reading_id in S. destruct S as (S1 & _ & _ & _ & _ & _ & _ & S8 & _). split; [|split].
  - intros H. exact (S8 b H).
  - intros t -> H. cbn [option_map]. f_equal. exact (S1 t H).
  - intros H.
    refine (proj1 (proj2 (proj2 (proj2 (proj2 (proj2 (proj2 (proj2 (clean_sub (driver_strategy d df) None (false, QNone, ident_path df)
      (fun _ => false) (like_field d) (exact_field d) _ _ _ _ _ _)))))))) b H).
    + intros []; reflexivity.
    + reflexivity.
    + discriminate.
    + reflexivity.
    + reflexivity.
    + intros. apply like_stable.
Qed.
Print Assumptions C68_driver_field.

(** ** Scope: if the parameters name the driver only in D::F, those of the [GadgetKind] impl do
    not name it. *)
Definition names (d : string) (p : gparam) : list string :=
  let known := field_known d (None, ["DriverField"]) in
  match p with
  | GPType _ _ b def => snd (den_bounds heads_meaning known b) ++
      match def with Some t => snd (den heads_meaning known t) | None => [] end
  | _ => []
  end.
Definition names_plain (p : gparam) : list string :=
  match p with GPType _ _ b def => heads_bounds b ++ match def with Some t => heads t | None => [] end | _ => [] end.
Definition param_open (d : string) (p : gparam) : Prop :=
  match p with
  | GPType _ _ b def => field_open_bounds d b = true /\ forall t, def = Some t -> field_open d t = true
  | _ => True
  end.
Lemma strip_names d p : names (gd_ident d) (strip_attr d p) = names (gd_ident d) p /\ (param_open (gd_ident d) p -> param_open (gd_ident d) (strip_attr d p))
  /\ keeps d (strip_attr d p) = keeps d p.
Proof. destruct p; cbn; try (split; [reflexivity|split; [auto|reflexivity]]). destruct (String.eqb i (gd_ident d)) eqn:E; cbn; rewrite ?E; split; [reflexivity|split; [auto|reflexivity]|reflexivity|split; [auto|reflexivity]]. Qed.
Theorem C68_scope : forall (d : gdriver) (g : list gparam),
  (forall p, In p g -> keeps d p = true -> param_open (gd_ident d) p /\ ~ In (gd_ident d) (names (gd_ident d) p)) ->
  forall p', In p' (kind_params d g) -> ~ In (gd_ident d) (names_plain p').
Proof.
  intros d g H p' I. apply in_app_or in I. destruct I as [I|[<-|[]]]; [|intros []].
  apply in_map_iff in I. destruct I as (p & <- & I). apply filter_In in I. destruct I as [I K].
  apply in_map_iff in I. destruct I as (p0 & <- & I). destruct (strip_names d p0) as (N1 & N2 & N3). rewrite N3 in K.
  destruct (H p0 I K) as [O N]. rewrite <- N1 in N. apply N2 in O. revert O N. generalize (strip_attr d p0). intros [at_ i b def|s bs|i t] O N;
    [|intros []|intros []].
  destruct (C68_driver_field _ heads_meaning (gd_ident d) "DriverField" at_ i b def) as (b' & def' & E & Eb & Ed & _).
  cbn [replace_driver_field_in_generic_param] in *. injection E as E1 E2. rewrite E1, E2. destruct O as [O1 O2].
  cbn [names names_plain] in *. unfold heads_bounds, heads. rewrite (Eb O1). intros J. apply N. apply in_app_or in J. apply in_or_app.
  destruct J as [J|J]; [left; exact J|right].
  destruct def as [t|].
  - specialize (Ed t eq_refl (O2 t eq_refl)). destruct def' as [t'|]; [|discriminate]. cbn in Ed. injection Ed as Ed.
    rewrite Ed in J. exact J.
  - cbn in E2. subst def'. exact J.
Qed.
Print Assumptions C68_scope.

(** ** Types: [Rebind] at D and 'dr is the gadget itself; its [Kind] is the type the impl is
    for, with DriverField standing for the driver's field; that type uses only parameters
    which the impl declares. *)
Theorem C68_rebind : forall (d : gdriver) (g : list gparam), rebind_arguments d (ty_generics g) = ty_generics g.
Proof.
  intros d g. unfold rebind_arguments, map_args, ty_generics. rewrite map_map. apply map_ext. intros [at_ i b def|s bs|i t]; cbn.
  - destruct (String.eqb_spec i (gd_ident d)) as [->|]; reflexivity.
  - unfold is_lt. destruct (String.eqb_spec (gd_life d) s) as [->|]; reflexivity.
  - destruct (String.eqb_spec i (gd_ident d)) as [->|]; reflexivity.
Qed.
Print Assumptions C68_rebind.
Theorem C68_kind : forall (core : segs) (d : gdriver) (g : list gparam),
  (forall p, In p g -> ~ In "DriverField" (binds p)) ->
  kind_arguments core d (ty_generics g) = map (inst_arg "DriverField" (driver_f core d)) (kind_subst_arguments d (ty_generics g)).
Proof.
  intros core d g H. unfold kind_arguments, kind_subst_arguments, map_args, ty_generics. rewrite !map_map. apply map_ext_in.
  intros p I. specialize (H p I). destruct p as [at_ i b def|s bs|i t]; cbn in *.
  - destruct (String.eqb i (gd_ident d)); [reflexivity|]. simpl. destruct (String.eqb_spec i "DriverField") as [->|]; [tauto|reflexivity].
  - destruct (is_lt d s); reflexivity.
  - destruct (String.eqb i (gd_ident d)); [reflexivity|]. simpl. destruct (String.eqb_spec i "DriverField") as [->|]; [tauto|reflexivity].
Qed.
Print Assumptions C68_kind.
Theorem C68_bound : forall (d : gdriver) (g : list gparam) (a : arg), In a (kind_subst_arguments d (ty_generics g)) ->
  (forall i, In i (heads_arg a) -> In i (flat_map binds (kind_params d g))) /\
  (forall s, a = ALife s -> s = "static" \/ In s (flat_map binds_life (kind_params d g))).
Proof.
  intros d g a I. unfold kind_subst_arguments, map_args, ty_generics in I. rewrite map_map in I. apply in_map_iff in I.
  destruct I as (p & <- & I).
  assert (Keep : keeps d p = true -> forall f : gparam -> list string,
    (forall q, f (replace_driver_field_in_generic_param (gd_ident d) "DriverField" (strip_attr d q)) = f q) ->
    forall i, In i (f p) -> In i (flat_map f (kind_params d g))).
  { intros K f Hf i J. apply in_flat_map. exists (replace_driver_field_in_generic_param (gd_ident d) "DriverField" (strip_attr d p)).
    split; [|rewrite Hf; exact J]. apply in_or_app. left. apply in_map, filter_In.
    split; [apply in_map, I|]. rewrite (proj2 (proj2 (strip_names d p))). exact K. }
  assert (Fb : forall q, binds (replace_driver_field_in_generic_param (gd_ident d) "DriverField" (strip_attr d q)) = binds q)
    by (intros []; cbn; try reflexivity; destruct (String.eqb i (gd_ident d)); reflexivity).
  assert (Fl : forall q, binds_life (replace_driver_field_in_generic_param (gd_ident d) "DriverField" (strip_attr d q)) = binds_life q)
    by (intros []; cbn; try reflexivity; destruct (String.eqb i (gd_ident d)); reflexivity).
  assert (Df : In "DriverField" (flat_map binds (kind_params d g))).
  { apply in_flat_map. exists (GPType [] "DriverField" ff_field None). split; [apply in_or_app; right; left; reflexivity|left; reflexivity]. }
  destruct p as [at_ i b def|s bs|i t]; cbn [param_arg].
  - cbn [is_ty ident_ty last_seg ident_path]. destruct (String.eqb i (gd_ident d)) eqn:E.
    + split; [|discriminate]. intros j J. cbn in J. destruct J as [<-|[]]. exact Df.
    + split; [|discriminate]. intros j J. cbn in J. destruct J as [<-|[]].
      apply (Keep ltac:(cbn; rewrite E; reflexivity) binds Fb). left. reflexivity.
  - destruct (is_lt d s) eqn:E.
    + split; [intros j []|]. intros x X. injection X as <-. left. reflexivity.
    + split; [intros j []|]. intros x X. injection X as <-. right.
      apply (Keep ltac:(cbn; unfold is_lt in E; rewrite String.eqb_sym, E; reflexivity) binds_life Fl). left. reflexivity.
  - cbn [is_ty ident_ty last_seg ident_path]. destruct (String.eqb i (gd_ident d)) eqn:E.
    + split; [|discriminate]. intros j J. cbn in J. destruct J as [<-|[]]. exact Df.
    + split; [|discriminate]. intros j J. cbn in J. destruct J as [<-|[]].
      apply (Keep ltac:(reflexivity) binds Fb). left. reflexivity.
Qed.
Print Assumptions C68_bound.

(** ** The driver: D and 'dr unless a type parameter is marked; then the first marked one, with
    the only lifetime of its first bound on a trait called Driver. *)
Theorem C68_extract : forall (g : list gparam) (d : gdriver), extract g = Some d <->
  (Forall unmarked g /\ d = mk_gdriver "D" "dr") \/
  (exists g1 at_ i b def g2 l s, g = g1 ++ GPType at_ i b def :: g2 /\ Forall unmarked g1 /\ marked at_ /\
     driver_bound b (PAAngle l) /\ only_life l s /\ d = mk_gdriver i s).
Proof.
  intros g d. induction g as [|p r IH].
  - cbn. split.
    + intros H. injection H as <-. left. split; [constructor|reflexivity].
    + intros [[_ ->]|(g1 & ? & ? & ? & ? & ? & ? & ? & E & _)]; [reflexivity|destruct g1; discriminate].
  - assert (Skip : unmarked p -> (extract r = Some d <-> (Forall unmarked (p :: r) /\ d = mk_gdriver "D" "dr") \/
      (exists g1 at_ i b def g2 l s, p :: r = g1 ++ GPType at_ i b def :: g2 /\ Forall unmarked g1 /\ marked at_ /\
         driver_bound b (PAAngle l) /\ only_life l s /\ d = mk_gdriver i s))).
    { intros U. rewrite IH. split.
      - intros [[H ->]|(g1 & at_ & i & b & def & g2 & l & s & -> & H & K)].
        + left. split; [constructor; assumption|reflexivity].
        + right. exists (p :: g1), at_, i, b, def, g2, l, s. split; [reflexivity|]. split; [constructor; assumption|exact K].
      - intros [[H ->]|(g1 & at_ & i & b & def & g2 & l & s & E & H & K)].
        + left. inversion H. auto.
        + right. destruct g1 as [|q g1]; cbn in E; injection E as E1 E2.
          * exfalso. subst p. apply U, K.
          * exists g1, at_, i, b, def, g2, l, s. split; [exact E2|]. split; [inversion H; assumption|exact K]. }
    destruct p as [at_ i b def|s bs|i t]; [|apply Skip; exact I|apply Skip; exact I].
    cbn [extract]. destruct (existsb (fun a => attr_is a "driver") at_) eqn:E.
    + apply marked_ok in E. rewrite extract_bounds_ok. split.
      * intros (l & s & D & O & ->). right. exists [], at_, i, b, def, r, l, s. repeat split; auto.
      * intros [[H _]|(g1 & at' & i' & b' & def' & g2 & l & s & Q & H & K & D & O & ->)].
        -- inversion H; subst. contradiction.
        -- destruct g1 as [|q g1]; cbn in Q; injection Q as Q1 Q2.
           ++ subst. exists l, s. auto.
           ++ subst q. inversion H; subst. contradiction.
    + apply Skip. cbn. intros Mk. apply marked_ok in Mk. congruence.
Qed.
Print Assumptions C68_extract.

(** ** Examples: proc/kind.rs:52-68, WithSuffix<'_, _, Output<'_, _, C>> in a tuple; the struct of
    derive/gadget.rs with renamed driver and a bound on its field *)
Definition gen (i : string) (l : list arg) : ty := TPath false QNone (scons i (PAAngle (fold_right acons anil l)) snil).
Definition mx_kind : ty :=
  TTuple (tcons (gen "WithSuffix" [ALife "_"; AType TInfer; AType (gen "Output" [ALife "_"; AType TInfer; AType (ident_ty "C")])])
         (tcons (gen "MyGadget" [ALife "_"; AType TInfer; AType (ident_ty "C"); AOther 5]) tnil)).
Example C68_ex_kind : infer_open mx_kind = true /\ no_infer mx_kind = false /\
  replace_inferences (ident_ty "F") mx_kind =
  TTuple (tcons (gen "WithSuffix" [ALife "static"; AType (phantom (ident_ty "F")); AType (gen "Output" [ALife "static"; AType (phantom (ident_ty "F")); AType (ident_ty "C")])])
         (tcons (gen "MyGadget" [ALife "static"; AType (phantom (ident_ty "F")); AType (ident_ty "C"); AOther 5]) tnil)).
Proof. repeat split. Qed.
Definition mx_params : list gparam :=
  [GPLife "my_dr" []; GPType [mk_attribute "ragu" (Some ["driver"])] "MyD" (bcons (BLife "a") (bcons (BTrait false (scons "ragu_core" PANone (scons "Driver" (PAAngle (acons (ALife "my_dr") anil)) snil))) bnil)) None;
   GPType [] "C" (bcons (BTrait false (scons "Cycle" (PAAngle (acons (AType (TPath false QNone (scons "MyD" PANone (scons "F" PANone snil)))) anil)) snil)) bnil) None;
   GPConst "N" (ident_ty "usize")].
Example C68_ex_params :
  extract mx_params = Some (mk_gdriver "MyD" "my_dr") /\
  kind_params (mk_gdriver "MyD" "my_dr") mx_params =
    [GPType [] "C" (bcons (BTrait false (scons "Cycle" (PAAngle (acons (AType (ident_ty "DriverField")) anil)) snil)) bnil) None;
     GPConst "N" (ident_ty "usize"); GPType [] "DriverField" ff_field None] /\
  (forall p, In p mx_params -> keeps (mk_gdriver "MyD" "my_dr") p = true -> param_open "MyD" p /\ ~ In "MyD" (names "MyD" p)) /\
  (forall p, In p mx_params -> ~ In "DriverField" (binds p)) /\
  kind_subst_arguments (mk_gdriver "MyD" "my_dr") (ty_generics mx_params) =
    [ALife "static"; AType (phantom (ident_ty "DriverField")); AType (ident_ty "C"); AType (ident_ty "N")].
Proof.
  split; [reflexivity|]. split; [reflexivity|]. split.
  - intros p [<-|[<-|[<-|[<-|[]]]]] K; try discriminate K.
    + split; [split; [reflexivity|discriminate]|]. vm_compute. intuition discriminate.
    + split; [exact I|intros []].
  - split; [|reflexivity]. intros p [<-|[<-|[<-|[<-|[]]]]]; vm_compute; intuition discriminate.
Qed.
(** rejected: two lifetimes, no arguments, no bound called Driver (helpers.rs:127-134) *)
Example C68_ex_reject :
  let e b := extract [GPType [mk_attribute "ragu" (Some ["driver"])] "D" (bcons b bnil) None] in
  e (BTrait false (scons "Driver" (PAAngle (acons (ALife "dr") (acons (ALife "another_dr") anil))) snil)) = None /\
  e (BTrait false (scons "Driver" PANone snil)) = None /\ e (BLife "a") = None.
Proof. repeat split. Qed.
(** proc/kind.rs:52-68 *)
Example C68_ex_macro : infer_open (gen "MyGadget" [ALife "_"; AType TInfer]) = true /\
  kind_macro (scons "ragu_core" PANone snil) (ident_ty "F") false (gen "MyGadget" [ALife "_"; AType TInfer]) =
  TPath true (QAs (gen "MyGadget" [ALife "static"; AType (phantom (ident_ty "F"))]) 3)
    (scons "ragu_core" PANone (scons "gadgets" PANone (scons "Gadget" (PAAngle (acons (ALife "static") (acons (AType (phantom (ident_ty "F"))) anil))) (scons "Kind" PANone snil)))).
Proof. split; reflexivity. Qed.
