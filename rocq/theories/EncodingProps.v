(** Properties C31 (encoding round trip) and C61 (default sublattices). *)
From Verif Require Import EncodingProofs.
Open Scope nat_scope.

(** C31.  Encoding an allowed occupancy succeeds, gives codes in range, and
    decoding gives it back; decoding codes in range succeeds and encoding gives them
    back when species lists have no repetition; a species not allowed on its site makes
    encoding fail. *)
Theorem C31_encode_decode :
  forall allowed occu, Forall2 (fun sps sp => In sp sps) allowed occu ->
    exists enc, encode_occupancy allowed occu = Some enc /\
      Forall2 (fun sps i => i < length sps) allowed enc /\
      decode_occupancy allowed enc = Some occu.
Proof. exact encode_decode. Qed.
Print Assumptions C31_encode_decode.

Theorem C31_decode_encode :
  forall allowed enc,
    Forall (fun sps => NoDup sps) allowed -> Forall2 (fun sps i => i < length sps) allowed enc ->
    exists occu, decode_occupancy allowed enc = Some occu /\
      Forall2 (fun sps sp => In sp sps) allowed occu /\
      encode_occupancy allowed occu = Some enc.
Proof. exact decode_encode. Qed.
Print Assumptions C31_decode_encode.

Theorem C31_rejects :
  forall allowed occu i sps sp,
    nth_error allowed i = Some sps -> nth_error occu i = Some sp -> ~ In sp sps ->
    encode_occupancy allowed occu = None.
Proof. exact encode_rejects. Qed.
Print Assumptions C31_rejects.

(** The structure built from an occupancy has exactly the non-vacancy species, each
    on its site. *)
Theorem C31_structure :
  forall allowed enc str,
    Forall2 (fun sps i => i < length sps) allowed enc ->
    structure_from_occupancy allowed enc = Some str ->
    exists occu, decode_occupancy allowed enc = Some occu /\
      forall i sp, In (i, sp) str <-> nth_error occu i = Some sp /\ sp <> Vac.
Proof. exact structure_spec. Qed.
Print Assumptions C31_structure.

Definition ex_allowed := [[Sp 1; Sp 2]; [Sp 4]; [Sp 1; Vac]; [Sp 1; Sp 2]].
Example C31_example :
  encode_occupancy ex_allowed [Sp 2; Sp 4; Vac; Sp 1] = Some [1; 0; 1; 0] /\
  decode_occupancy ex_allowed [1; 0; 1; 0] = Some [Sp 2; Sp 4; Vac; Sp 1] /\
  encode_occupancy ex_allowed [Sp 2; Sp 1; Vac; Sp 1] = None.
Proof. repeat split. Qed.

(** C61.  When the unique site spaces have pairwise different species lists and
    cover the sites, every site is in exactly one default sublattice, the one with its
    allowed species, and every encoded occupancy is valid for this layout. *)
Theorem C61_default_layout_partial :
  forall allowed spaces,
    allowed <> [] -> NoDup (map (map fst) spaces) ->
    (forall sps, In sps allowed -> In sps (map (map fst) spaces)) ->
    (forall sp : site_space, In sp spaces -> sp <> []) ->
    layout (get_sublattices allowed spaces) (length allowed) /\
    (forall sl s, In sl (get_sublattices allowed spaces) -> In s (sl_sites sl) ->
       nth_error allowed s = Some (sl_species sl)) /\
    (forall enc, Forall2 (fun sps i => i < length sps) allowed enc ->
       valid_occu (get_sublattices allowed spaces) (length allowed) enc).
Proof.
  exact (fun a s H1 H2 H3 H4 =>
    let K := default_layout H1 H2 H3 H4 in
    conj (proj1 K) (conj (proj2 K) (fun e F => default_valid H1 H2 H3 H4 F))).
Qed.
Print Assumptions C61_default_layout_partial.

(** Two different site spaces with the same species but different measures make
    the default sublattices overlap. *)
Theorem C61_overlap_refuted :
  exists allowed spaces,
    NoDup spaces /\ (forall sps, In sps allowed -> In sps (map (map fst) spaces)) /\
    (forall sp : site_space, In sp spaces -> sp <> []) /\
    map sl_sites (get_sublattices allowed spaces) = [[0; 1]; [0; 1]] /\ length allowed = 2.
Proof.
  exists [[Sp 0; Sp 1]; [Sp 0; Sp 1]],
    [ [(Sp 0, Qc_frac 1 2); (Sp 1, Qc_frac 1 2)]; [(Sp 0, Qc_frac 1 4); (Sp 1, Qc_frac 3 4)] ].
  split; [|split; [|split; [|split]]].
  - repeat constructor; simpl; intuition discriminate.
  - intros sps [<-|[<-|[]]]; simpl; auto.
  - intros sp [<-|[<-|[]]]; discriminate.
  - reflexivity.
  - reflexivity.
Qed.
Print Assumptions C61_overlap_refuted.

Example C61_example :
  map (fun sl => (sl_sites sl, sl_active sl))
    (get_sublattices ex_allowed
      [ [(Sp 1, Qc_frac 1 2); (Sp 2, Qc_frac 1 2)]; [(Sp 4, 1%Qc)]; [(Sp 1, Qc_frac 1 2); (Vac, Qc_frac 1 2)] ])
  = [ ([0; 3], [0; 3]); ([1], []); ([2], [2]) ].
Proof. reflexivity. Qed.
