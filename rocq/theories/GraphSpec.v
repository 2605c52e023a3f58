(** Specification vocabulary for proximity graphs: vertices are the positions of the sample, two distinct
    positions are joined when their observations are closer than the threshold. *)
From Verif Require Import Base.

Definition adjacent (x : list R) (d : R) (i j : nat) : Prop :=
  (i < length x)%nat /\ (j < length x)%nat /\ i <> j /\ Rabs (nth i x 0 - nth j x 0) < d.

(** [k] is the number of objects satisfying P *)
Definition counts {A} (P : A -> Prop) (k : nat) : Prop :=
  exists l, NoDup l /\ length l = k /\ forall a, In a l <-> P a.

Definition degree_is x d i k := counts (adjacent x d i) k.
Definition edge_count_is x d k := counts (fun p => (fst p < snd p)%nat /\ adjacent x d (fst p) (snd p)) k.

Inductive connected (x : list R) (d : R) : nat -> nat -> Prop :=
| connected_refl i : connected x d i i
| connected_step i j k : adjacent x d i j -> connected x d j k -> connected x d i k.

(** [k] connected components: k representatives, none connected to another, every vertex connected to one *)
Definition component_count_is (x : list R) (d : R) (k : nat) : Prop :=
  exists reps, NoDup reps /\ length reps = k /\
    (forall r, In r reps -> (r < length x)%nat) /\
    (forall r s, In r reps -> In s reps -> connected x d r s -> r = s) /\
    (forall i, (i < length x)%nat -> exists r, In r reps /\ connected x d i r).

Definition vertex_set (x : list R) (s : list nat) : Prop := NoDup s /\ forall i, In i s -> (i < length x)%nat.
Definition is_clique x d s := vertex_set x s /\ forall i j, In i s -> In j s -> i <> j -> adjacent x d i j.
Definition is_independent x d s := vertex_set x s /\ forall i j, In i s -> In j s -> ~ adjacent x d i j.
Definition largest (P : list nat -> Prop) (k : nat) : Prop :=
  (exists s, P s /\ length s = k) /\ forall s, P s -> (length s <= k)%nat.
Definition clique_number_is x d k := largest (is_clique x d) k.
Definition independence_number_is x d k := largest (is_independent x d) k.
