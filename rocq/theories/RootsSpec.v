(** What a program can still use, in terms of the abstract machine of
    VmSpec.v: the result, what has been stored in the slots of the running
    activation and of those waiting, the arguments waiting to be passed on,
    and everything that can be got from these: the parts of pairs and
    closures, and the activations a continuation not yet used will bring
    back. *)
From Coq Require Import List.
From Verif Require Import VmModel VmSpec.
Import ListNotations.

(** The parts of what [P] holds of. *)
Inductive parts (S : sst) (P : obj -> Prop) : obj -> Prop :=
| p_here : forall o, P o -> parts S P o
| p_car : forall a d, parts S P (OCons a d) -> parts S P a
| p_cdr : forall a d, parts S P (OCons a d) -> parts S P d
| p_data : forall c nf rq d o, parts S P (ONative c nf rq d) -> In o d -> parts S P o
| p_cont : forall id up a o, parts S P (OCont id) -> s_k S id = Some up ->
    In (IAct a) up -> In (Some o) (a_slots a) -> parts S P o
| p_contargs : forall id up l o, parts S P (OCont id) -> s_k S id = Some up ->
    In (IArgs l) up -> In o l -> parts S P o.

(** in a slot of an activation, or the result *)
Definition in_slots (S : sst) (o : obj) : Prop :=
  o = s_res S \/
  (exists a, s_cur S = Some a /\ In (Some o) (a_slots a)) \/
  (exists a, In (IAct a) (s_pend S) /\ In (Some o) (a_slots a)).

(** among the arguments an over-application has still to pass on *)
Definition in_args (S : sst) (o : obj) : Prop :=
  (exists l, In (IArgs l) (s_pend S) /\ In o l) \/ (exists l, s_wait S = Some l /\ In o l).

Definition usable (S : sst) (o : obj) : Prop :=
  parts S (fun x => in_slots S x \/ in_args S x) o.
