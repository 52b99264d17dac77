(** Models of the classification of permittivities by shape
    (nannos/utils/helpers.py:51-65), of Layer.is_uniform (layers.py:233-259) and
    of Layer.get_tangent_field (layers.py:261-274). *)
From Coq Require Import Bool List String PeanoNat.
From Verif Require Import Base.
Import ListNotations.
Set Implicit Arguments.

(** A python number, or an array with its shape ([bk.array(3.0)] has shape ()). *)
Inductive value := Scalar | Array (shape : list nat).

Fixpoint shape_eqb (a b : list nat) : bool :=
  match a, b with
  | [], [] => true
  | x :: a', y :: b' => (Nat.eqb x y && shape_eqb a' b')%bool
  | _, _ => false
  end.

(** helpers.py:51-52 *)
Definition is_scalar (x : value) : bool := match x with Scalar => true | Array _ => false end.

(** helpers.py:55-56 *)
Definition is_anisotropic (x : value) : bool :=
  match x with Scalar => false | Array s => shape_eqb (firstn 2 s) [3; 3] end.

(** helpers.py:59-65 *)
Definition is_uniform (x : value) : bool :=
  match x with
  | Scalar => true
  | Array s =>
      if is_anisotropic x then shape_eqb s [3; 3]
      else match s with
           | [n] => Nat.eqb n 1
           | _ => shape_eqb s []
           end
  end.

(** layers.py:241-251 [Layer.is_uniform] *)
Definition layer_is_uniform (epsilon mu : value) : bool := (is_uniform epsilon && is_uniform mu)%bool.

(** ** Specification: the kinds of permittivity a layer can have. *)
Inductive kind :=
| KNumber                          (* a number *)
| KTensor                          (* a 3x3 tensor *)
| KGrid (Nx Ny : nat)              (* a number at each grid point *)
| KTensorGrid (Nx Ny : nat).       (* a 3x3 tensor at each grid point *)
(** The arrays that represent a kind. *)
Definition represents (x : value) (k : kind) : Prop :=
  match k with
  | KNumber => x = Scalar \/ x = Array [] \/ x = Array [1]
  | KTensor => x = Array [3; 3]
  | KGrid Nx Ny => x = Array [Nx; Ny]
  | KTensorGrid Nx Ny => x = Array [3; 3; Nx; Ny]
  end.
Definition uniform_kind (k : kind) : bool :=
  match k with KNumber | KTensor => true | _ => false end.
Definition tensor_kind (k : kind) : bool :=
  match k with KTensor | KTensorGrid _ _ => true | _ => false end.

(** ** The tangent field of a layer *)
Section TangentField.
Variables Grid Field : Type.
(** The two algorithms of formulations/tangent.py (35-63 and 66-230). *)
Variables field_fft field_opt : Grid -> bool -> res Field.

(** formulations/tangent.py:233-241 [get_tangent_field] *)
Definition get_tangent_field (grid : Grid) (normalize : bool) (type : string) : res Field :=
  if (type =? "fft")%string then field_fft grid normalize
  else if (type =? "opt")%string then field_opt grid normalize
  else Err ValueError.

(** The attributes of a layer read by the method; [l_grid] is the permittivity
    (its zz component for a tensor, layers.py:266-267). *)
Record layer := Layer {
  l_uniform : bool; l_grid : Grid; l_field : option Field; l_type : string }.

(** layers.py:261-274; [type] is the argument, None by default.  Line 268
    computes [type or self.tangent_field_type] and the call does not use it. *)
Definition layer_tangent_field (l : layer) (normalize : bool) (type : option string)
  : res (option Field) :=
  if l_uniform l then Ok None
  else match l_field l with
       | Some f => Ok (Some f)
       | None =>
           let unused := match type with
                         | Some s => if (s =? "")%string then l_type l else s
                         | None => l_type l end in
           let! f := get_tangent_field (l_grid l) normalize (l_type l) in Ok (Some f)
       end.

(** What the argument should select. *)
Definition spec_type (l : layer) (type : option string) : string :=
  match type with Some s => s | None => l_type l end.
Definition spec_tangent_field (l : layer) (normalize : bool) (type : option string) : res (option Field) :=
  if l_uniform l then Ok None
  else match l_field l with
       | Some f => Ok (Some f)
       | None => let! f := get_tangent_field (l_grid l) normalize (spec_type l type) in Ok (Some f)
       end.
End TangentField.
