(** C66: values that exist or not. *)
From Coq Require Import List Arith NArith Bool Lia.
From Verif Require Import FieldDef GF ArithModel GadgetModel GadgetSpec CircModel CompileModel CompileSpec ParSpec ParProofs Props_Arith Props_Comp MaybeModel FixtureModel Props_Fixture.
Import ListNotations.
Local Open Scope nat_scope.

(** ** the rest of the model's values *)
Definition obind {A B : Type} (f : A -> option B) (o : option A) : option B := match o with Some a => f a | None => None end.
Definition pure {S A B : Type} (g : A -> B) : A -> eff S B := fun a => ret S (g a).
(** component j of a tuple *)
Fixpoint component (Ts : list Type) (j : nat) : tuple Ts -> option {T : Type & T} :=
  match Ts return tuple Ts -> option {T : Type & T} with
  | [] => fun _ => None
  | T :: Ts => fun t => match j with O => Some (existT _ T (fst t)) | Datatypes.S j => component Ts j (snd t) end
  end.
(** component j of a tuple of values that exist or not, as an option *)
Fixpoint perhaps_component (K : mkind) (Ts : list Type) (j : nat) : tuple (map (perhaps K) Ts) -> option (option {T : Type & T}) :=
  match Ts return tuple (map (perhaps K) Ts) -> option (option {T : Type & T}) with
  | [] => fun _ => None
  | T :: Ts => fun t => match j with O => Some (option_map (existT (fun T => T) T) (as_option K (fst t))) | Datatypes.S j => perhaps_component K Ts j (snd t) end
  end.
(** For both kinds the operations are those of [option] (a value exists for a whole driver
    or not at all), and none fails: mapping and chaining with functions that neither fail
    nor have effects, conversion, writing, and casting a tuple or array of any size, whose
    components come out in order. *)
Theorem C66_option : forall (S : Type) (K : mkind) (s : S),
  (forall (R : Type) (r : R), exists m, m_just S K (ret S r) s = Some (m, s) /\ as_option K m = match K with KAlways => Some r | KEmpty => None end) /\
  (forall (T U : Type) (g : T -> U) (m : perhaps K T), exists m', m_map S K (pure g) m s = Some (m', s) /\ as_option K m' = option_map g (as_option K m)) /\
  (forall (T U : Type) (g : T -> perhaps K U) (m : perhaps K T), exists m', m_and_then S K (pure g) m s = Some (m', s) /\ as_option K m' = obind (fun v => as_option K (g v)) (as_option K m)) /\
  (forall (T U : Type) (g : T -> U) (m : perhaps K T), as_option K (m_into K g m) = option_map g (as_option K m)) /\
  (forall (T : Type) (g : T -> T) (m : perhaps K T), as_option K (m_write K g m) = option_map g (as_option K m)) /\
  (forall (T : Type) (m m' : perhaps K T), as_option K m = as_option K m' -> m = m') /\
  (forall (T : Type) (m : perhaps K T) v, m_take S K m s = Some v <-> exists a, as_option K m = Some a /\ v = (a, s)) /\
  (forall Ts (m : perhaps K (tuple Ts)), exists t, m_cast S K Ts m s = Some (t, s) /\
     forall j, j < length Ts -> perhaps_component K Ts j t = Some (obind (component Ts j) (as_option K m))).
Proof.
  intros S K s. split; [|split; [|split; [|split; [|split; [|split; [|split]]]]]].
  - intros R r. destruct K; eexists; split; reflexivity.
  - intros T U g m. destruct K; eexists; split; reflexivity.
  - intros T U g m. destruct K; eexists; split; reflexivity.
  - intros T U g m. destruct K; reflexivity.
  - intros T g m. destruct K; reflexivity.
  - intros T m m' E. destruct K; [now injection E|]. now destruct m, m'.
  - intros T m v. destruct K; cbn; split.
    + intros E. injection E as <-. now exists m.
    + intros (a & E & ->). injection E as <-. reflexivity.
    + discriminate.
    + intros (a & E & _). discriminate E.
  - intros Ts. destruct K; cbn [m_cast perhaps].
    + induction Ts as [|T Ts IH]; intros m; [exists tt; split; [reflexivity|intros j Hj; inversion Hj]|].
      destruct m as [a r]. destruct (IH r) as (t & E & Hc). exists (a, t). split.
      * cbn [c_cast m_just fst snd]. unfold bind, ret at 1. now rewrite E.
      * intros [|j] Hj; [reflexivity|]. cbn [perhaps_component snd]. apply Hc. cbn in Hj. lia.
    + intros m. induction Ts as [|T Ts IH]; [exists tt; split; [reflexivity|intros j Hj; inversion Hj]|].
      destruct IH as (t & E & Hc). exists (tt, t). split.
      * cbn [c_empty m_empty]. destruct (c_empty KEmpty Ts); [|discriminate]. now injection E as ->.
      * intros [|j] Hj; [reflexivity|]. cbn [perhaps_component snd]. apply Hc. cbn in Hj. lia.
Qed.
Print Assumptions C66_option.

(** ** code over such values *)
(** code generic in the kind: statements in an environment of earlier values.  A closure
    can take any of them (which compiles for both kinds, since for [Empty] it never
    runs). *)
Section Code.
  Variables (S V E : Type).
  Inductive stmt :=
  | SJust (f : list V -> eff S V)
  | STry (f : list V -> eff S (V + E))
  | SMap (i : nat) (f : list V -> V -> eff S V)
  | SAndThen (i : nat) (f : list V -> V -> eff S V)
  | SWrite (i : nat) (f : V -> V).
  Fixpoint takes (K : mkind) (env : list (perhaps K V)) : eff S (list V) :=
    match env with
    | [] => ret S []
    | m :: env => bind S (m_take S K m) (fun v => bind S (takes K env) (fun vs => ret S (v :: vs)))
    end.
  Definition step (K : mkind) (c : stmt) (env : list (perhaps K V)) : eff S (list (perhaps K V) + E) :=
    match c with
    | SJust f => bind S (m_just S K (bind S (takes K env) f)) (fun m => ret S (inl (env ++ [m])))
    | STry f => bind S (m_try_just S K (bind S (takes K env) f)) (fun r => ret S (match r with inl m => inl (env ++ [m]) | inr e => inr e end))
    | SMap i f => match nth_error env i with None => fun _ => None | Some m =>
        bind S (m_map S K (fun v => bind S (takes K env) (fun vs => f vs v)) m) (fun m => ret S (inl (env ++ [m]))) end
    | SAndThen i f => match nth_error env i with None => fun _ => None | Some m =>
        bind S (m_and_then S K (fun v => m_just S K (bind S (takes K env) (fun vs => f vs v))) m) (fun m => ret S (inl (env ++ [m]))) end
    | SWrite i f => match nth_error env i with None => fun _ => None | Some m =>
        ret S (inl (firstn i env ++ m_write K f m :: skipn (Datatypes.S i) env)) end
    end.
  Fixpoint run (K : mkind) (cs : list stmt) (env : list (perhaps K V)) : eff S (list (perhaps K V) + E) :=
    match cs with
    | [] => ret S (inl env)
    | c :: cs => bind S (step K c env) (fun r => match r with inl env => run K cs env | inr e => ret S (inr e) end)
    end.
  (** the statements refer to values that are there *)
  Fixpoint scoped (n : nat) (cs : list stmt) : Prop :=
    match cs with
    | [] => True
    | (SJust _ | STry _) :: cs => scoped (Datatypes.S n) cs
    | (SMap i _ | SAndThen i _) :: cs => i < n /\ scoped (Datatypes.S n) cs
    | SWrite i _ :: cs => i < n /\ scoped n cs
    end.
  Definition grows (c : stmt) : nat := match c with SWrite _ _ => 0 | _ => 1 end.
  Lemma empties (l : list unit) : l = repeat tt (length l).
  Proof. induction l as [|[] l IH]; cbn; congruence. Qed.
  Lemma step_empty c env s : scoped (length env) [c] -> exists env', step KEmpty c env s = Some (inl env', s) /\ length env' = length env + grows c.
  Proof.
    intros Hs. assert (N : forall i, i < length env -> exists m, nth_error env i = Some m).
    { intros i Hi. destruct (nth_error env i) as [m|] eqn:Em; [now exists m|]. apply nth_error_None in Em. lia. }
    destruct c as [f|f|i f|i f|i f]; cbn [scoped] in Hs; cbn [step m_just m_try_just m_map m_and_then m_write grows];
      try (destruct (N i (proj1 Hs)) as (m & Em); rewrite Em); eexists; (split; [reflexivity|]); rewrite ?app_length; cbn [length]; try lia.
    rewrite firstn_length, skipn_length. lia.
  Qed.
  Lemma step_always c env s env' s' : step KAlways c env s = Some (inl env', s') -> length env' = length env + grows c.
  Proof.
    destruct c as [f|f|i f|i f|i f]; cbn [step m_just m_try_just m_map m_and_then m_write grows].
    - unfold bind. destruct (takes KAlways env s) as [[vs s1]|]; [|discriminate]. destruct (f vs s1) as [[v s2]|]; [|discriminate]. intros E0. injection E0 as <- <-. rewrite app_length. cbn. lia.
    - unfold bind. destruct (takes KAlways env s) as [[vs s1]|]; [|discriminate]. destruct (f vs s1) as [[[v|e] s2]|]; [| |discriminate]; intros E0; [|discriminate]. injection E0 as <- <-. rewrite app_length. cbn. lia.
    - destruct (nth_error env i) as [m|]; [|discriminate]. unfold bind. destruct (takes KAlways env s) as [[vs s1]|]; [|discriminate]. destruct (f vs m s1) as [[v s2]|]; [|discriminate]. intros E0. injection E0 as <- <-. rewrite app_length. cbn. lia.
    - destruct (nth_error env i) as [m|]; [|discriminate]. unfold bind. destruct (takes KAlways env s) as [[vs s1]|]; [|discriminate]. destruct (f vs m s1) as [[v s2]|]; [|discriminate]. intros E0. injection E0 as <- <-. rewrite app_length. cbn. lia.
    - destruct (nth_error env i) as [m|] eqn:Em; [|discriminate]. unfold ret. intros E0. apply (f_equal (fun o => match o with Some (inl l, _) => length l | _ => 0 end)) in E0. cbv beta iota in E0. rewrite <- E0.
      assert (i < length env) by (apply nth_error_Some; congruence). rewrite app_length. cbn [length]. rewrite firstn_length, skipn_length. lia.
  Qed.
  Lemma scoped_cons n c cs : scoped n (c :: cs) -> scoped n [c] /\ scoped (n + grows c) cs.
  Proof. destruct c; cbn [scoped grows]; rewrite ?Nat.add_1_r, ?Nat.add_0_r; tauto. Qed.
End Code.
(** Without values code runs to its end whatever its closures do: it neither panics nor
    returns an error nor changes the state, and its result is the list of as many empty
    values as the same code leaves when it runs with values. *)
Theorem C66_erased : forall (S V E : Type) (cs : list (stmt S V E)) (n : nat) (s : S), scoped S V E n cs ->
  exists k, run S V E KEmpty cs (repeat tt n) s = Some (inl (repeat tt k), s) /\
  forall env s0 env' s', length env = n -> run S V E KAlways cs env s0 = Some (inl env', s') -> length env' = k.
Proof.
  intros S V E cs. induction cs as [|c cs IH]; intros n s Hs.
  - exists n. split; [reflexivity|]. intros env s0 env' s' L R. cbn in R. injection R as <- <-. exact L.
  - apply scoped_cons in Hs. destruct Hs as [H1 H2].
    destruct (step_empty S V E c (repeat tt n) s) as (env1 & E1 & L1); [now rewrite repeat_length|]. rewrite repeat_length in L1.
    destruct (IH (n + grows S V E c) s H2) as (k & R & C). exists k. split.
    + cbn [run]. unfold bind. rewrite E1. replace env1 with (repeat tt (n + grows S V E c)) by (rewrite <- L1; symmetry; apply empties). exact R.
    + intros env s0 env' s' L R'. cbn [run] in R'. unfold bind in R'. destruct (step S V E KAlways c env s0) as [[[env2|e] s2]|] eqn:E2; [| |discriminate].
      * apply (C env2 s2 env' s'); [|exact R']. rewrite <- L. eapply step_always. exact E2.
      * discriminate R'.
Qed.
Print Assumptions C66_erased.

(** ** the driver that keeps nothing *)
(** Generic code runs through on it exactly if it compiles, with the same number of output
    elements; in particular if its relations can be met. *)
Lemma phantom_compile {F : Field} {A1 A2 : Type} (RA : A1 -> A2 -> Prop) (p : G F unit A1) (q : G F wref A2) : grel (fun _ _ => True) true RA p q ->
  forall n, match phantom p, snd (compile q n) with Some a, Some b => RA a b | None, None => True | _, _ => False end.
Proof.
  induction 1 as [a1 a2 H| |p H|w1 w2 k1 k2 Hw Hk IH|w1 w2 k1 k2 Hw Hk IH|l1 l2 k1 k2 Hl Hk IH|l1 l2 k1 k2 Hl Hk IH]; intros n; cbn [phantom compile snd].
  - exact H.
  - exact Logic.I.
  - discriminate H.
  - destruct (match w2 with Some t => t | None => (f0, f0, f0, f0) end) as [[[a b] c] d]. cbn [snd]. now apply IH.
  - now apply IH.
  - now apply IH.
  - apply IH.
Qed.
Theorem C66_phantom : forall (F : Field) (p : circuit F), generic p ->
  option_map (@length _) (phantom (p unit tt)) = option_map (@length _) (couts p) /\
  (forall r, holds (p F f1) r -> phantom (p unit tt) <> None).
Proof.
  intros F p G. pose proof (phantom_compile _ _ _ (G unit wref tt WOne (fun _ _ => True) Logic.I) 4) as C.
  assert (X : option_map (@length _) (phantom (p unit tt)) = option_map (@length _) (couts p)).
  { unfold couts. destruct (phantom (p unit tt)) as [a|], (snd (compile (p wref WOne) 4)) as [b|]; cbn; try contradiction; [|reflexivity].
    rewrite map_length. f_equal. clear -C. induction C; cbn; congruence. }
  split; [exact X|]. intros r H E. rewrite E in X. pose proof (C51_total F p r G H) as T. destruct (couts p); [discriminate X|congruence].
Qed.
Print Assumptions C66_phantom.

(** ** examples *)
(** the crate's test (maybe/mod.rs:226-271): 42 + (100 + 10) * 2 + 10 = 272; a state counts
    the closures that run *)
Definition ex_code : list (stmt nat nat unit) :=
  let tick {A} (a : A) : eff nat A := fun s => Some (a, Datatypes.S s) in
  [SJust _ _ _ (fun _ => tick (100 + 10)); SMap _ _ _ 1 (fun _ v => tick (v * 2)); STry _ _ _ (fun _ => tick (inl 10));
   SAndThen _ _ _ 0 (fun vs v => tick (v + nth 2 vs 0)); SAndThen _ _ _ 4 (fun vs v => tick (v + nth 3 vs 0)); SWrite _ _ _ 1 (fun _ => 7)].
Example C66_ex : scoped _ _ _ 1 ex_code /\
  run nat nat unit KAlways ex_code [42] 0 = Some (inl [42; 7; 220; 10; 262; 272], 5) /\
  run nat nat unit KEmpty ex_code [tt] 0 = Some (inl [tt; tt; tt; tt; tt; tt], 0) /\
  run nat nat unit KAlways [STry _ _ _ (fun _ => ret nat (inr tt))] [42] 0 = Some (inr tt, 0) /\
  run nat nat unit KEmpty [STry _ _ _ (fun _ => ret nat (inr tt)); SJust _ _ _ (fun _ _ => None)] [tt] 0 = Some (inl [tt; tt; tt], 0) /\
  m_cast nat KAlways [nat : Type; bool : Type; nat : Type] (1, (true, (3, tt))) 0 = Some ((1, (true, (3, tt))), 0) /\
  m_cast nat KEmpty [nat : Type; bool : Type; nat : Type] tt 0 = Some ((tt, (tt, (tt, tt))), 0) /\
  c_empty KAlways [nat : Type; bool : Type] = None /\ cast_sizes 3 = Some [2; 3] /\ cast_sizes 1 = None.
Proof. repeat split; cbn; lia. Qed.
(** the macro generates one cast impl for every tuple size from two to the given maximum and
    for no other, so no two impls conflict; a maximum below two is refused *)
Theorem C66_sizes : forall max,
  (cast_sizes max = None <-> max < 2) /\
  forall l, cast_sizes max = Some l -> NoDup l /\ forall n, In n l <-> 2 <= n <= max.
Proof.
  intros max. unfold cast_sizes. destruct (Nat.ltb_spec max 2) as [L|L].
  - split; [split; auto|]. discriminate.
  - split; [split; [discriminate|lia]|]. intros l [= <-]. split; [apply seq_NoDup|]. intros n. rewrite in_seq. lia.
Qed.
Print Assumptions C66_sizes.
Example C66_sizes_ex : cast_sizes 4 = Some [2; 3; 4].
Proof. reflexivity. Qed.

(** the squaring circuit runs through; code that stops with an error does not *)
Example C66_phantom_ex : (phantom (simple_circuit F97 unit tt) <> None /\ generic (simple_circuit F97)) /\
  phantom (gbind (e_alloc F97 unit None) (fun _ => @GErr F97 unit (list (elem F97 unit)))) = None.
Proof. split; [split; [discriminate|apply simple_generic]|reflexivity]. Qed.
