(** What the Send contract speaks about. *)
From Coq Require Import List Bool.
From Verif Require Import DeriveModel SendModel.

(** [phantom_in d t d' u]: a gadget of type t at driver d has somewhere a field
    of type [PhantomData<U>], seen at driver d' *)
Inductive phantom_in : drv -> ty -> drv -> ty -> Prop :=
| pi_array d t d' u : phantom_in d t d' u -> phantom_in d (YArray t) d' u
| pi_box d t d' u : phantom_in d t d' u -> phantom_in d (YBox t) d' u
| pi_vec d t d' u : phantom_in d t d' u -> phantom_in d (YVec t) d' u
| pi_fst d a b d' u : phantom_in d a d' u -> phantom_in d (YPair a b) d' u
| pi_snd d a b d' u : phantom_in d b d' u -> phantom_in d (YPair a b) d' u
| pi_demoted d t d' u : phantom_in (demoted d) t d' u -> phantom_in d (YDemoted t) d' u
| pi_struct d fs d' u : phantom_field d fs d' u -> phantom_in d (YStruct fs) d' u
with phantom_field : drv -> flds -> drv -> ty -> Prop :=
| pf_here d attrs u fs : phantom_field d (FCons attrs (YPhantom u) fs) d u
| pf_in d attrs t fs d' u : phantom_in d t d' u -> phantom_field d (FCons attrs t fs) d' u
| pf_next d attrs t fs d' u : phantom_field d fs d' u -> phantom_field d (FCons attrs t fs) d' u.

(** a wire is somewhere in the gadget *)
Inductive wire_in : ty -> Prop :=
| wi_array t : wire_in t -> wire_in (YArray t)
| wi_box t : wire_in t -> wire_in (YBox t)
| wi_vec t : wire_in t -> wire_in (YVec t)
| wi_fst a b : wire_in a -> wire_in (YPair a b)
| wi_snd a b : wire_in b -> wire_in (YPair a b)
| wi_demoted t : wire_in t -> wire_in (YDemoted t)
| wi_struct fs : wire_field fs -> wire_in (YStruct fs)
with wire_field : flds -> Prop :=
| wf_here attrs fs : wire_field (FCons attrs YWire fs)
| wf_in attrs t fs : wire_in t -> wire_field (FCons attrs t fs)
| wf_next attrs t fs : wire_field fs -> wire_field (FCons attrs t fs).
