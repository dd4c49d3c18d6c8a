(** Model of container/TileVector.hpp (host memory, conventional allocator), on top of the Vector model.
    Property names are nat (SmallString equality is C06).  [L] is lane_width (> 0). *)
From Verif Require Import Prelude VectorModel.

Section T.
Context {A : Type}.
Variable zero : A.                      (* dst(chn, i) = 0 *)
Variable L : nat.
Definition tag := (nat * nat)%type.     (* PropertyTag: name, numChannels *)
Record tv := mktv { tbuf : vec A; ttags : list tag; tsize : nat; tnch : nat }.

(** count_tiles (40-42), numTiles (384) *)
Definition count_tiles (n : nat) : nat := (n + L - 1) / L.
(** numTotalChannels (145-149) *)
Definition total_channels (tags : list tag) : nat := fold_left (fun c t => c + snd t) tags 0.
(** constructor (65-90) *)
Definition tv_ctor (tags : list tag) (n : nat) : tv :=
  mktv (v_ctor (count_tiles n * L * total_channels tags)) tags n (total_channels tags).
(** the address expression of operator[] (397, 402), getVal/setVal (108, 130) and the views' operator() (768, 807) *)
Definition addr (nch chn i : nat) : nat := (i / L * nch + chn) * L + i mod L.
(** address of (chn, i) within tile t of a view: tile() (875-876) then in-tile operator() (759, 798) *)
Definition tile_addr (nch t chn i : nat) : nat := t * L * nch + (chn * L + i).
(** element read and write; None outside the allocation *)
Definition tv_get (t : tv) (chn i : nat) : option (option A) := load (tbuf t) (addr (tnch t) chn i).
Definition tv_set (t : tv) (chn i : nat) (x : A) : option tv :=
  match store (tbuf t) (addr (tnch t) chn i) (Some x) with Some b => Some (mktv b (ttags t) (tsize t) (tnch t)) | None => None end.
(** getPropertyOffset (528-535); None for -1 *)
Fixpoint prop_offset_from (tags : list tag) (name offset : nat) : option nat :=
  match tags with
  | [] => None
  | (n, c) :: r => if name =? n then Some offset else prop_offset_from r name (offset + c)
  end.
Definition getPropertyOffset (t : tv) (name : nat) : option nat := prop_offset_from (ttags t) name 0.
(** getPropertySize (515-519), hasProperty (498-502) *)
Fixpoint prop_size (tags : list tag) (name : nat) : nat :=
  match tags with [] => 0 | (n, c) :: r => if name =? n then c else prop_size r name end.
Definition hasProperty (t : tv) (name : nat) : bool := existsb (fun g => name =? fst g) (ttags t).
(** resize (477-482) *)
Definition tv_resize (t : tv) (n : nat) : option tv :=
  match alignedResize (tbuf t) (count_tiles n * L * tnch t) (L * tnch t) with
  | Some b => Some (mktv b (ttags t) n (tnch t)) | None => None end.
(** clear (476) *)
Definition tv_clear (t : tv) : tv := tv_ctor (ttags t) 0.
(** copy constructor (412-425): copies the buffer, then numChannels * capacity() elements again *)
Definition tv_copy (o : tv) : option tv :=
  match v_copy (tbuf o) with
  | None => None
  | Some b =>
    if tnch o =? 0 then None (* capacity() divides by _numChannels (382) *)
    else if capacity (tbuf o) / tnch o =? 0 then Some (mktv b (ttags o) (tsize o) (tnch o))
    else match copy_n (cells (tbuf o)) (cells b) 0 0 (tnch o * (capacity (tbuf o) / tnch o)) with
         | Some c => Some (mktv (mkvec c (vsize b)) (ttags o) (tsize o) (tnch o)) | None => None end
  end.
(** clone (432-438) *)
Definition tv_clone (o : tv) : option tv :=
  let r := tv_ctor (ttags o) (tsize o) in
  match copy_n (cells (tbuf o)) (cells (tbuf r)) 0 0 (tnch o * (count_tiles (tsize o) * L)) with
  | Some c => Some (mktv (mkvec c (vsize (tbuf r))) (ttags r) (tsize r) (tnch r)) | None => None end.

(** One assignment of a parallel body: destination slot, and where the value comes from. *)
Inductive src := From (a : nat) | Const (x : A).
Definition transfer := (nat * src)%type.
Definition run_transfer (sb : list (option A)) (d : option (list (option A))) (t : transfer) : option (list (option A)) :=
  match d with
  | None => None
  | Some d => match snd t with
              | Const x => upd d (fst t) (Some x)
              | From a => match nth_error sb a with Some x => upd d (fst t) x | None => None end
              end
  end.
(** a parallel for performs all assignments of all its bodies, in any order *)
Definition run_transfers (sb d : list (option A)) (order : list transfer) := fold_left (run_transfer sb) order (Some d).

(** TileVectorCopy (583-597) over range(s) *)
Definition append_transfers (nch nch' s : nat) : list transfer :=
  flat_map (fun i => map (fun c => (addr nch' c i, if c <? nch then From (addr nch c i) else Const zero)) (seq 0 nch')) (seq 0 s).
(** TileVectorReset (624-640) *)
Definition reset_transfers (nch s : nat) (x : A) : list transfer :=
  flat_map (fun i => map (fun c => (addr nch c i, Const x)) (seq 0 nch)) (seq 0 s).
(** TileVectorTileReorder (641-666) over range(sz * lane_width) *)
Definition reorder_transfers (scatter : bool) (nch sz : nat) (mp : list nat) : list transfer :=
  flat_map (fun p => let o := p mod L in let i := p / L in let j := nth i mp 0 in
     map (fun d => if scatter then (tile_addr nch j d o, From (tile_addr nch i d o))
                   else (tile_addr nch i d o, From (tile_addr nch j d o))) (seq 0 nch)) (seq 0 (sz * L)).

(** the tag merging loop of append_channels (606-618); None = throws *)
Fixpoint merge_tags (tags : list tag) (app : list tag) : option (list tag) :=
  match app with
  | [] => Some tags
  | (n, c) :: r =>
    match find (fun g => fst g =? n) tags with
    | None => merge_tags (tags ++ [(n, c)]) r
    | Some g => if snd g =? c then merge_tags tags r else None
    end
  end.

(** scaffolding: the calls of container/TileVector.hpp *)
Inductive top :=
| TSet (chn i : nat) (x : A) | TResize (n : nat) | TClear | TReset (x : A)
| TAppend (app : list tag) | TReorder (scatter : bool) (mp : list nat) | TCopy | TClone.
(** outcome of an operation: undefined behaviour, an exception (state unchanged), or a new state *)
Inductive tres := UB | Throw | Ok (t : tv).
Definition of_opt (o : option tv) : tres := match o with Some t => Ok t | None => UB end.
Inductive tstep : tv -> top -> tres -> Prop :=
| S_set t c i x : tstep t (TSet c i x) (of_opt (tv_set t c i x))
| S_resize t n : tstep t (TResize n) (of_opt (tv_resize t n))
| S_clear t : tstep t TClear (Ok (tv_clear t))
| S_reset t x order : Permutation order (reset_transfers (tnch t) (tsize t) x) ->
    tstep t (TReset x) (of_opt (match run_transfers [] (cells (tbuf t)) order with
       | Some c => Some (mktv (mkvec c (vsize (tbuf t))) (ttags t) (tsize t) (tnch t)) | None => None end))
| S_append_throw t app : merge_tags (ttags t) app = None -> tstep t (TAppend app) Throw
| S_append_same t app : merge_tags (ttags t) app = Some (ttags t) -> tstep t (TAppend app) (Ok t)
| S_append t app tags order : merge_tags (ttags t) app = Some tags -> tags <> ttags t ->
    let tmp := tv_ctor tags (tsize t) in
    Permutation order (append_transfers (tnch t) (tnch tmp) (tsize t)) ->
    tstep t (TAppend app) (of_opt (match run_transfers (cells (tbuf t)) (cells (tbuf tmp)) order with
       | Some c => Some (mktv (mkvec c (vsize (tbuf tmp))) tags (tsize t) (tnch tmp)) | None => None end))
| S_reorder_throw t sc mp : length mp <> count_tiles (tsize t) -> tstep t (TReorder sc mp) Throw
| S_reorder t sc mp order : length mp = count_tiles (tsize t) ->
    let tmp := tv_ctor (ttags t) (tsize t) in
    Permutation order (reorder_transfers sc (tnch t) (count_tiles (tsize t)) mp) ->
    tstep t (TReorder sc mp) (of_opt (match run_transfers (cells (tbuf t)) (cells (tbuf tmp)) order with
       | Some c => Some (mktv (mkvec c (vsize (tbuf tmp))) (ttags t) (tsize t) (tnch tmp)) | None => None end))
| S_copy t : tstep t TCopy (of_opt (tv_copy t))
| S_clone t : tstep t TClone (of_opt (tv_clone t)).
(** an execution of a sequence of operations; an exception leaves the object unchanged and the program goes on; None: undefined behaviour was reached *)
Inductive trun : tv -> list top -> option tv -> Prop :=
| R_nil t : trun t [] (Some t)
| R_ok t o t' os r : tstep t o (Ok t') -> trun t' os r -> trun t (o :: os) r
| R_throw t o os r : tstep t o Throw -> trun t os r -> trun t (o :: os) r
| R_ub t o os : tstep t o UB -> trun t (o :: os) None.
End T.
Arguments tv : clear implicits.
Arguments top : clear implicits.
Arguments tres : clear implicits.
