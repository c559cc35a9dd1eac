(** C71: the macros find the crates they name. *)
From Coq Require Import List String Lia.
From Verif Require Import PathModel PathSpec.
Import ListNotations.
Open Scope string_scope.

(** In every crate the generated paths lead to the items of ragu_core and of
    ragu_primitives under whatever names the crate uses, and resolution fails
    exactly when there is no way to reach them. *)
Theorem C71_resolve : forall c f, crate_name_of c f ->
  (forall path, ragu_core_path f = Some path -> denotes c path "ragu_core") /\
  (forall path, ragu_primitives_path f = Some path -> denotes c path "ragu_primitives") /\
  (ragu_core_path f <> None <-> reachable c "ragu_core") /\
  (ragu_primitives_path f <> None <-> reachable c "ragu_primitives") /\
  (resolve_both f <> None <-> reachable c "ragu_core" /\ reachable c "ragu_primitives").
Proof.
  intros c f H.
  assert (C : (forall path, ragu_core_path f = Some path -> denotes c path "ragu_core") /\
              (ragu_core_path f <> None <-> reachable c "ragu_core")).
  { unfold ragu_core_path. pose proof (H "ragu_core") as A. pose proof (H "ragu") as B.
    destruct (f "ragu_core") as [| |n]; destruct (f "ragu") as [| |m]; cbn [app]; split;
      try (intros path E; first [discriminate E|injection E as <-]);
      try (split; [intros _|discriminate]).
    - split; [intros K; now contradiction K|]. intros (p & [->| ->] & [E|(n & I)]); exfalso.
      + now apply (proj1 A). + now apply (proj2 A n). + now apply (proj1 B). + now apply (proj2 B n).
    - exists "ragu", [], "ragu". repeat split; [left; auto|constructor].
    - exists "ragu". auto.
    - exists m, [], "ragu". repeat split; [right; apply B|constructor].
    - exists "ragu". split; [auto|right; exists m; apply B].
    - exists "ragu_core", [], "ragu_core". repeat split; [left; auto|constructor].
    - exists "ragu_core". auto.
    - exists "ragu_core", [], "ragu_core". repeat split; [left; auto|constructor].
    - exists "ragu_core". auto.
    - exists "ragu_core", [], "ragu_core". repeat split; [left; auto|constructor].
    - exists "ragu_core". auto.
    - exists n, [], "ragu_core". repeat split; [right; apply A|constructor].
    - exists "ragu_core". split; [auto|right; exists n; apply A].
    - exists "ragu", [], "ragu". repeat split; [left; auto|constructor].
    - exists "ragu". auto.
    - exists n, [], "ragu_core". repeat split; [right; apply A|constructor].
    - exists "ragu_core". split; [auto|right; exists n; apply A]. }
  assert (P : (forall path, ragu_primitives_path f = Some path -> denotes c path "ragu_primitives") /\
              (ragu_primitives_path f <> None <-> reachable c "ragu_primitives")).
  { unfold ragu_primitives_path. pose proof (H "ragu_primitives") as A. pose proof (H "ragu") as B.
    destruct (f "ragu_primitives") as [| |n]; destruct (f "ragu") as [| |m]; split;
      try (intros path E; first [discriminate E|injection E as <-]);
      try (split; [intros _|discriminate]).
    - split; [intros K; now contradiction K|]. intros (p & [->| ->] & [E|(n & I)]); exfalso.
      + now apply (proj1 A). + now apply (proj2 A n). + now apply (proj1 B). + now apply (proj2 B n).
    - exists "ragu", ["primitives"], "ragu". repeat split; [left; auto|constructor].
    - exists "ragu". auto.
    - exists m, ["primitives"], "ragu". repeat split; [right; apply B|constructor].
    - exists "ragu". split; [auto|right; exists m; apply B].
    - exists "ragu_primitives", [], "ragu_primitives". repeat split; [left; auto|constructor].
    - exists "ragu_primitives". auto.
    - exists "ragu_primitives", [], "ragu_primitives". repeat split; [left; auto|constructor].
    - exists "ragu_primitives". auto.
    - exists "ragu_primitives", [], "ragu_primitives". repeat split; [left; auto|constructor].
    - exists "ragu_primitives". auto.
    - exists n, [], "ragu_primitives". repeat split; [right; apply A|constructor].
    - exists "ragu_primitives". split; [auto|right; exists n; apply A].
    - exists "ragu", ["primitives"], "ragu". repeat split; [left; auto|constructor].
    - exists "ragu". auto.
    - exists n, [], "ragu_primitives". repeat split; [right; apply A|constructor].
    - exists "ragu_primitives". split; [auto|right; exists n; apply A]. }
  destruct C as [C1 C2], P as [P1 P2]. split; [exact C1|]. split; [exact P1|]. split; [exact C2|]. split; [exact P2|].
  rewrite <- C2, <- P2. unfold resolve_both.
  destruct (ragu_core_path f), (ragu_primitives_path f); split; intros K; try discriminate; try (now split); try tauto.
Qed.
Print Assumptions C71_resolve.

(** The paths mean one thing only: in a crate whose names are unique a path
    does not lead to two libraries. *)
Theorem C71_unique : forall c path l l', well_formed c -> denotes c path l -> denotes c path l' -> l = l'.
Proof.
  intros c path l l' (ND & NI & _) (n & r & p & -> & A & B) (n' & r' & p' & E & A' & B'). injection E as <- <-.
  assert (Hp : p = p').
  { destruct A as [[-> ->]|A], A' as [[E' ->]|A'].
    - reflexivity.
    - exfalso. apply NI. now apply (in_map fst) in A'.
    - exfalso. apply NI. rewrite <- E'. now apply (in_map fst) in A.
    - revert ND A A'. generalize (deps c). induction l0 as [|[a b] t IH]; cbn; [tauto|].
      intros ND [E1|I1] [E2|I2]; inversion ND; subst.
      + congruence.
      + injection E1 as -> ->. exfalso. apply H1. now apply (in_map fst) in I2.
      + injection E2 as -> ->. exfalso. apply H1. now apply (in_map fst) in I1.
      + now apply IH. }
  subst p'. destruct B; inversion B'; reflexivity.
Qed.
Print Assumptions C71_unique.

(** a crate that knows ragu_core as [core2] and has ragu_primitives only inside
    ragu, and ragu_primitives itself *)
Definition an_app := mk_caller "app" [("core2", "ragu_core"); ("zk", "ragu"); ("ff", "ff")].
Definition an_app_names (p : string) : found :=
  if string_dec p "app" then Itself else
  if string_dec p "ragu_core" then Name "core2" else
  if string_dec p "ragu" then Name "zk" else
  if string_dec p "ff" then Name "ff" else NotFound.
Example C71_ex :
  crate_name_of an_app an_app_names /\ well_formed an_app /\
  resolve_both an_app_names = Some (["core2"], ["zk"; "primitives"]) /\
  denotes an_app ["zk"; "primitives"] "ragu_primitives" /\ denotes an_app ["zk"] "ragu_core" /\
  resolve_both (fun p => if string_dec p "ragu_primitives" then Itself else if string_dec p "ragu_core" then Name "ragu_core" else NotFound)
    = Some (["ragu_core"], ["ragu_primitives"]) /\
  resolve_both (fun p => if string_dec p "ragu_core" then Itself else NotFound) = None.
Proof.
  split; [|split; [|split; [reflexivity|split; [|split; [|split; reflexivity]]]]].
  - intros p. unfold an_app_names. cbn [package deps an_app].
    destruct (string_dec p "app"); [assumption|]. destruct (string_dec p "ragu_core") as [->|]; [split; [discriminate|cbn; auto]|].
    destruct (string_dec p "ragu") as [->|]; [split; [discriminate|cbn; auto]|].
    destruct (string_dec p "ff") as [->|]; [split; [discriminate|cbn; auto]|].
    split; [assumption|]. intros m [E|[E|[E|[]]]]; injection E; intros; subst; congruence.
  - unfold well_formed. cbn. repeat split.
    + repeat constructor; cbn; intuition discriminate.
    + intuition discriminate.
    + intuition discriminate.
  - exists "zk", ["primitives"], "ragu". cbn. repeat split; [right; auto|constructor].
  - exists "zk", [], "ragu". cbn. repeat split; [right; auto|constructor].
Qed.
