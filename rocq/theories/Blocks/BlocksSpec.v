(** What the problem and block properties say, independently of the loops. *)
From Coq Require Import String Reals List Arith Permutation.
From Verif Require Import Base.Field Base.Sums Base.Res Element.ElementSpec Residual.ResidualSpec Blocks.BlocksModel.
Import ListNotations.
Local Open Scope string_scope. Local Open Scope list_scope. Local Open Scope R_scope.

(** The problems of the user manual that a build offers: keyword 'Physics', keyword 'PDE Constraint', what is solved. *)
Definition offers (b : build) : list (string * string * created) :=
  ((if b_elliptic b then
      [ ("Mechanical", "Elliptic", Problem EllipticProblem Mechanics);
        ("Thermal", "Elliptic", Problem EllipticProblem Thermal);
        ("Thermomechanical", "Elliptic", Problem EllipticProblem Thermomechanics);
        ("Electromechanical", "Elliptic", Problem EllipticProblem Electromechanics) ] else [])
  ++ (if b_parabolic b then
      [ ("Thermal", "Parabolic", Problem ParabolicProblem Thermal);
        ("Thermomechanical", "Parabolic", Problem ParabolicProblem Thermomechanics) ] else [])
  ++ (if b_hyperbolic b then [ ("Mechanical", "Hyperbolic", Problem HyperbolicProblem Mechanics) ] else [])
  ++ (if (b_stabilized b && b_elliptic b)%bool then
      [ ("Stabilized Mechanical", "Elliptic", Problem EllipticVMSProblem StabilizedMechanics);
        ("Stabilized Thermomechanical", "Elliptic", Problem EllipticVMSProblem StabilizedThermomechanics) ] else [])
  ++ [ ("Plasticity", "Elliptic", Problem PlasticityProblem Plasticity);
       ("Thermoplasticity", "Elliptic", Problem PlasticityProblem ThermoPlasticity) ]). 
(** A description is answered with the problem it names if the build offers it, and refused otherwise. *)
Definition answered (b : build) (phys pde : string) (o : res created) : Prop :=
  (exists p, In (phys, pde, p) (offers b) /\ o = Ok p) \/ ((forall p, ~ In (phys, pde, p) (offers b)) /\ o = Throw).

(** The blocks cover the mesh: every one of the n cells is listed exactly once. *)
Definition covers (n : nat) (blocks : list (list nat)) : Prop := Permutation (concat blocks) (seq 0 n).
(** m gives the material of each cell. *)
Definition materials (ds : list domain) (m : nat -> string) : Prop :=
  forall d c, In d ds -> In c (dom_cells d) -> m c = dom_material d.
(** Entry g of the sum of cell vectors r c, corner a of cell c being node conn c a. *)
Definition nodal_sum (n npc ndof : nat) (conn : nat -> nat -> nat) (r : nat -> nat -> R) (g : nat) : R :=
  rs n (fun c => rs npc (fun a => rs ndof (fun i => if Nat.eqb g (conn c a * ndof + i) then r c (a * ndof + i)%nat else 0))).
(** The numbers of a cell: ndof per node. *)
Definition cell_part (ndof : nat) (node : nat -> nat) (W : nat -> R) (k : nat) : R := W (node (k / ndof) * ndof + k mod ndof)%nat.
(** X moved by t in direction W. *)
Definition moved (X W : nat -> R) (t : R) : nat -> R := fun k => X k + t * W k.
(** M is the Jacobian, rows = variables, of F at X in all directions, for the first n entries of F and N variables. *)
Definition jacobian_of (N n : nat) (F : (nat -> R) -> nat -> R) (X : nat -> R) (M : nat -> nat -> R) : Prop :=
  forall W j, (j < n)%nat -> derivable_pt_lim (fun t => F (moved X W t) j) 0 (rs N (fun i => M i j * W i)).
