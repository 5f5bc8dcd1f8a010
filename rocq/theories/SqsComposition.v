(** Model of the start of the search for special structures, [StochasticSQSGenerator] of [smol/capp/generate/special/sqs.py]:
    the occupancies of all supercells, and what is recorded while the multi-cell kernel runs.

    Simplifications: draws are explicit; sites of a supercell are in the order in which pymatgen makes them, all copies of the
    first site, then all copies of the second and so on, so that supercells of one size have the same sublattices. *)
From Verif Require Export RandomOccu Encoding Multicell.
Set Implicit Arguments.
Local Open Scope nat_scope.

(** [allowed_species] of a processor for a supercell of [size] primitive cells, processor/base.py:64-70. *)
Definition supercell_allowed (prim : list (list species)) (size : nat) : list (list species) := flat_map (fun sps => repeat sps size) prim.
(** The compositions that the site spaces were made from, sublattice.py:80-83 and domain.py:163-166, and the sublattices of a
    processor: one site space per composition, domain.py:129-161. *)
Definition cell_sublattices leb (comps : list composition) (prim : list (list species)) (size : nat) : option (list sublattice) :=
  let? spaces := opt_map (mk_site_space leb) comps in
  Some (get_sublattices (supercell_allowed prim size) spaces).
(** One occupancy after the other. *)
Fixpoint draw_all {A} (ms : list (prog A)) : prog (list A) :=
  match ms with
  | [] => pret []
  | m :: ms' => draw x <- m; draw xs <- draw_all ms'; pret (x :: xs)
  end.
(** [_get_initial_occupancies], sqs.py:667-684, for [ncells] processors: the compositions are read from the first processor;
    the tolerance is the default of [generate_random_ordered_occupancy], random.py:18. *)
Definition initial_occupancies leb (comps : list composition) (prim : list (list species)) (size ncells : nat) : prog (list (list nat)) :=
  match cell_sublattices leb comps prim size with
  | None => pfail
  | Some sls => if ncells =? 0 then pfail
                else draw_all (repeat (gen_composition leb (Qc_frac 1 1000000) sls (CompList comps)) ncells)
  end.
(** The start of a run from the last recorded occupancy, sqs.py:572-576 and 609-617 with [setup_sample] and [set_aux_state],
    base.py:692-711: an array of one row is taken as the occupancies of all cells if there is only one. *)
Definition resume (M : mcells) (s : mc) (occu : list nat) : option mc :=
  if length (m_kernels M) =? 1 then mc_start M (c_cur s) (c_count s) (c_period s) (c_bias s) [occu]
  else mc_continue M s occu.
