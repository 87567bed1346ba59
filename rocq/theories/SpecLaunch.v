(** Vocabulary of C136 and C137: what it means for launched nodes to be connected. *)
From Coq Require Import List String Bool.
From Verif Require Import LaunchModel.

(** The subscriber asks for no more than the publisher offers. *)
Definition compatible (offered requested : qos) : Prop :=
  (reliable requested = true -> reliable offered = true) /\ (transient_local requested = true -> transient_local offered = true).
(** What node a publishes through o arrives at the subscription i of node b. *)
Definition delivers (a : node) (o : endpoint) (b : node) (i : endpoint) : Prop :=
  In o (publications (runs a)) /\ In i (subscriptions (runs b)) /\
  topic a o = topic b i /\ ep_type o = ep_type i /\ compatible (ep_qos o) (ep_qos i).
(** b is the node called consumer, i its input. *)
Definition input_of (s : list node) (consumer input : string) (b : node) (i : endpoint) : Prop :=
  In b s /\ label b = consumer /\ In i (subscriptions (runs b)) /\ ep_name i = input.
(** The node called consumer gets its input from the output of the producer and no other
    node of the system writes to that topic. *)
Definition only_from (s : list node) (consumer input producer output : string) : Prop :=
  (exists b i, input_of s consumer input b i) /\
  forall b i, input_of s consumer input b i ->
    (exists a o, In a s /\ label a = producer /\ ep_name o = output /\ delivers a o b i) /\
    (forall a o, In a s -> In o (publications (runs a)) -> topic a o = topic b i -> label a = producer /\ ep_name o = output).
(** It gets its input from outside: from the given topic, to which no node of the system writes. *)
Definition only_outside (s : list node) (consumer input t : string) : Prop :=
  (exists b i, input_of s consumer input b i) /\
  forall b i, input_of s consumer input b i -> topic b i = t /\
    (forall a o, In a s -> In o (publications (runs a)) -> topic a o <> t).
(** Something the producer publishes arrives at the input. *)
Definition fed (s : list node) (consumer input producer : string) : Prop :=
  exists b i a o, input_of s consumer input b i /\ In a s /\ label a = producer /\ delivers a o b i.
(** The namespace of a launch file included below another than the root one. *)
Definition proper_namespace (group : string) : Prop := absolute group = true /\ group <> "/"%string.

(** The topics chosen by the user are absolute, and differ from each other and from those
    fixed in the launch file. *)
Definition sound_localization_args (a : localization_args) : Prop :=
  (forall t, In t (a_initial_pose a :: a_twist a :: a_points a :: a_lidar_pose a :: a_edge_map a :: a_surface_map a :: a_odom a :: nil) -> absolute t = true) /\
  NoDup (a_initial_pose a :: a_twist a :: a_points a :: a_lidar_pose a :: a_edge_map a :: a_surface_map a :: a_odom a ::
    "/points_converted" :: "/colored_scan" :: "/scan_edge" :: "/scan_surface" :: "/optimization_start_pose" :: nil)%string.
(** The same for the mapping launch file. *)
Definition sound_mapping_args (points pose : string) : Prop :=
  absolute points = true /\ absolute pose = true /\
  NoDup (points :: pose :: "/points_converted" :: "/colored_scan" :: "/scan_edge" :: "/scan_surface" :: nil)%string.
