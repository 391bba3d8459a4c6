(** Model of ContactWriter (/repo/python/dolfinx_contact/output.py): the facet mesh
    numbering and the arrays of contact pressures that write() fills.  The projection onto
    the output space and the file writer are not modelled. *)
From Coq Require Import List Arith ZArith Bool Reals.
Import ListNotations.
From Verif Require Import Prelude RSum RayModel KernelModel CropMethodModel.
Local Open Scope R_scope.

(** numpy's a[idx] = v, one entry after the other (output.py:208-209). *)
Definition assign {A} (a : list A) (idx : list nat) (v : list A) : list A :=
  fold_left (fun a iv => upd a (fst iv) (snd iv)) (combine idx v) a.

(** output.py:60-67: facets of the entities of one pair. *)
Definition facet_list (c_to_f : nat -> list nat) (entities : list (nat * nat)) : list nat :=
  map (fun e => nth (snd e) (c_to_f (fst e)) 0%nat) entities.
(** output.py:73-79: inverse of the facet mesh's entity map [fm_to_msh]. *)
Definition msh_to_fm (num_facets : nat) (fm_to_msh : list nat) : list Z :=
  assign (repeat (-1)%Z num_facets) fm_to_msh (map Z.of_nat (seq 0 (length fm_to_msh))).

(** What write() reads for a pair: entities, grad(u) and n_x as the packers return them
    (two axes), the contact normal, and the rows of material[i] as (mu, lambda) (output.py:151-211). *)
Record writer_pair := mkWriterPair {
  wp_entities : list (nat * nat);
  wp_grad : nd_array; wp_nx : nd_array;
  wp_normal : list R;
  wp_material : list (R * R) }.

Inductive written := Wrote (pn pt : list R) | WTypeError | WIndexError | WZeroDivisionError | WValueError.
(** Result of the loop over the pairs, before anything is stored (output.py:164-193). *)
Inductive forces_result := Forces (l : list (list R * list R)) | FTypeError | FIndexError.

Section Writer.
  Context (gdim : nat) (c_to_f : nat -> list nat) (num_facets : nat) (fm_to_msh : list nat).
  (** How the arrays are handed to the wrapper: as they are in the code. *)
  Context (pass : nd_array -> nd_array).

  (** wrappers.cpp:616-625: both arrays are declared nb::ndim<1>.  None: TypeError. *)
  Definition wrapped_contact_forces (grad_u n_x : nd_array) (nq nf : nat) (mu lmbda : R) : option (list R) :=
    if (length (nd_shape grad_u) =? 1)%nat && (length (nd_shape n_x) =? 1)%nat
    then Some (compute_contact_forces (nd_data grad_u) (nd_data n_x) nq nf gdim mu lmbda)
    else None.

  (** output.py:186-193: normal and tangential part of the traction at every point. *)
  Definition normal_force (sign n : list R) (p : nat) : R := rsum gdim (fun k => nth (p * gdim + k) sign 0 * nth (p * gdim + k) n 0).
  Definition tangential_force (sign n : list R) (p : nat) : R :=
    sqrt (rsum gdim (fun k => let t := nth (p * gdim + k) sign 0 - nth (p * gdim + k) n 0 * normal_force sign n p in t * t)).
  Definition split_forces (sign n : list R) (points : nat) : list R * list R :=
    (map (normal_force sign n) (seq 0 points), map (tangential_force sign n) (seq 0 points)).

  (** output.py:166-193. *)
  Fixpoint pair_forces (pairs : list writer_pair) : forces_result :=
    match pairs with
    | [] => Forces []
    | w :: r =>
        let nf := length (wp_entities w) in
        let nq := (nth 1 (nd_shape (wp_nx w)) 0 / gdim)%nat in
        match wp_material w with
        | [] => FIndexError
        | (mu, lmbda) :: _ =>
            match wrapped_contact_forces (pass (wp_grad w)) (pass (wp_nx w)) nq nf mu lmbda with
            | None => FTypeError
            | Some sign => match pair_forces r with
                           | Forces l => Forces (split_forces sign (wp_normal w) (nf * nq) :: l)
                           | e => e
                           end
            end
        end
    end.

  (** output.py:195-207: positions in the quadrature function of the facet mesh. *)
  Definition pair_dofs (nq : nat) (w : writer_pair) : list nat :=
    flat_map (fun f => let b := Z.to_nat (nth f (msh_to_fm num_facets fm_to_msh) 0%Z) in seq (b * nq) nq) (facet_list c_to_f (wp_entities w)).
  (** output.py:196-209; np.hstack of no arrays is a ValueError. *)
  Fixpoint store (nq : nat) (pairs : list writer_pair) (forces : list (list R * list R)) (pn pt : list R) : written :=
    match pairs, forces with
    | w :: pairs, f :: forces =>
        match wp_entities w with
        | [] => WValueError
        | _ => let dofs := pair_dofs nq w in store nq pairs forces (assign pn dofs (fst f)) (assign pt dofs (snd f))
        end
    | _, _ => Wrote pn pt
    end.

  (** output.py:151-209 write(), up to the projection.  [pn], [pt]: the arrays of the two
      quadrature functions before the call. *)
  Definition write_forces (pairs : list writer_pair) (pn pt : list R) : written :=
    match pair_forces pairs with
    | FTypeError => WTypeError
    | FIndexError => WIndexError
    | Forces forces =>
        match forces, pairs with
        | f :: _, w :: _ =>
            if (length (wp_entities w) =? 0)%nat then WZeroDivisionError
            else store (length (fst f) / length (wp_entities w)) pairs forces pn pt
        | _, _ => WIndexError
        end
    end.
End Writer.
