# Formal model of lycantropos/clipping in Coq 8.16

Source: `/repo` (clipping 6.0.0), read as text only.  Model and proofs: `/verif/rocq/theories`.
Statements: `properties.jsonl` (C01-C51).  Status of each: `MANIFEST.json`.

## 1. Trusted base

* **Coq 8.16.1 kernel** (with `vm_compute` in examples and witnesses).
* **Axioms: none.**  `Print Assumptions` below every `C..` theorem answers
  "Closed under the global context".  The standard library is the only library used; no
  `Admitted`, no `Variable`/`Hypothesis` outside of sections, no switched off checks, no functors.
  The checker also lists seven axioms of `Coq.ssr.ssrunder` (`Under_rel.*`): they are declared by a module of the standard
  library which gets loaded with tactics, no theorem depends on them.
* **The model is what the code does.**  Each definition cites its file and lines; section 2
  says what is simplified.  Nothing was run: there is no test of the model against the code.
* **Specifications**: `Spec.v` (segments, geometries), `SpecShape.v` (contours, polygons,
  even-odd rule), `SpecSides.v` (set operations, results), `SpecLocate.v` (external locators),
  `SpecNest.v` (separate contours, operands in a general or a mild position), `SpecTurn.v` (orientation of contours), `SpecReach.v` (points reached from inside), `SpecChamber.v` (results of intersections of regions), `SpecSweep.v` (states of sweeps).  The first three, `SpecNest.v`, `SpecTurn.v`, `SpecReach.v` and `SpecChamber.v` are stated in terms of `Geom.v` only.  `SpecLocate.v` takes from the model the
  record `locators` (`Filter.v`), `SpecSweep.v` talks about states of the modelled sweep.  C24, C25, C26, C27, C32, C33 and C41 are about
  such intermediate results, so their statements mention definitions of the model
  (`op_sweep`, `result_edges`, `events_to_connectivity`); statements about public functions do not.
* **External packages do what is written in section 3.**

## 2. What is modelled

Every function of `planar.py` (58 of them) has a definition in the model, together with
everything it calls in `clipping/core`.

| source | model | what it is |
|--------|-------|------------|
| `core/linear.py` 332-593, `core/unpacking.py` | `Pair.v` | pairs of segments, a segment with a multisegment, unpacking of results |
| `core/bounding.py` 20-204, 348-400 | `Bounding.v` | predicates on boxes and segments |
| `core/bounding.py` 207-345, 403-432 | `Filter.v` | predicates on boxes and shapes |
| `core/event.py`, `core/events_queue.py`, `core/sweep_line.py`, `core/enums.py` | `Sweep.v` | events, their queue, the sweep line, detection of intersections |
| `core/linear.py` 42-329 | `Linear.v` | sweeps over segments |
| common parts of `core/mixed.py`, `core/holeless.py`, `core/holey.py` | `Labelled.v` | `compute_fields`, `process_event` |
| `core/mixed.py` | `Mixed.v` | linear geometries with shapes |
| `core/utils.py`, `events_to_connectivity` of `core/event.py` | `Contour.v` | edges of contours, shrinking of collinear vertices, groups of events |
| `core/holeless.py` | `Tracing.v`, `Shaped.v` | regions |
| `core/holey.py` | `Shaped.v` (sweeps), `Holey.v` (contours, nesting) | polygons |
| `planar.py` | at the end of these files | public functions |
| `core/operands.py` | no definitions | operands are given by their values and lists of elements |

Not modelled: `hints.py`, `core/hints.py` (types only), `__init__.py`, `__repr__` of classes, the choice of a `context` and any
context other than an exact one, docstrings.

How it is modelled, and where it is simpler than the code:

* **Numbers** are `Qc`, canonical rationals with Leibniz equality: the exact mode of the library
  (`int`, `Fraction`).  Floating point is not modelled.
* **Exceptions** are values `Err e`; running out of fuel is a separate error `OutOfFuel`.
  Theorems of the form `f ... = Ok g` say that neither happens.
* **Events** are mutable objects referring to each other; here they are kept in two stores
  which only grow and are referred to by positions (`EL i`, `ER r`).  One record has fields of all
  kinds of events, functions of a kind do not read fields of other kinds.
  The assignments of `divide` and of the labelling are updates of the stores.
* **Queue and sweep line** are lists; what the packages `prioq` and `dendroid` leave open is
  given by an oracle (section 3) over which the theorems quantify.
* **`sorted`, `list.sort`** are a stable insertion sort comparing by `<` only, as Python does.
* **Identifiers of events** are their positions among the sorted events of the result.  The code would
  read a stale identifier for an event whose opposite is not there, and `UNDEFINED_INDEX` for one without
  `start_id`; both are `Err IndexError` here, and theorems of the form `= Ok g` exclude them.
* **Shrinking of collinear vertices**: the loops deleting from the list by (negative) indices are modelled
  literally (`Contour.v`).  In `holeless.py` it is done contour by contour while tracing; the model does it after
  all contours are traced (`Tracing.v`), which differs only in which error comes first.
* **Loops** take fuel; sweeps get `enough n` for `n` segments (`Linear.v`), which is
  proved to be enough for valid operands (C16 and the theorems about results).
* **Functions on contours without vertices** answer something instead of failing where ground or `min` would
  raise; theorems are about contours with vertices.
* **Operations on multisegments, multiregions, multipolygons** take lists of their elements.

## 3. External packages

* **`ground`** (context): `angle_orientation`, `segments_relation`, `segments_intersection`,
  boxes and constructors are executable definitions of `Geom.v` in exact arithmetic.
  The source of ground is not available here: these are written after its documentation, and
  `Relation.v` proves what they mean in terms of points for segments which are not single points.
  For boxes without interior some edges are single points, for which ground promises nothing;
  the model assumes that `segments_relation` treats them by the same case analysis.
* **`orient.planar`** (`point_in_region`, `segment_in_contour`, `segment_in_region`): an argument `x`
  of the model.  Theorems quantify over all `x` with `right_locators x`, i.e. ones answering
  according to the definitions in `SpecLocate.v` for simple contours; nothing is assumed about
  other contours.  `reference_locators` (`Locate.v`) is one for which this is proved.
* **`prioq.PriorityQueue`**: `pop` returns an element such that no other one is less.  If there are several,
  the oracle `o_pick` chooses; if there is none the result is `Err Unordered`.  Keys are compared in
  the state at the time of `pop`, while the heap of prioq is built by earlier comparisons, made before events in it were changed by
  divisions.  `C41` shows that this makes no difference: no division changes the order of events queued by then, and keys
  are ordered (totally for valid operands, weakly for merged segments).
* **`dendroid.red_black`**: a search tree comparing keys with `<`.  The oracle `o_shape` chooses the root
  of every subtree, so any balanced or unbalanced tree is covered, and it may change after every operation.
  Theorems quantify over the oracle `o` and mostly say that the result does not depend on it
  (`exists g, forall o, ... = Ok g`).  `C14`/`C15` refutations are for a particular shape of the tree (the lower median as
  a root), which a red-black tree of that size may have; it was not checked that dendroid builds it for these inputs.

## 4. Structure of the proofs

* `GeomFacts`, `Relation`, `PairFacts`, `PairProofs`, `PairThms`, `BoundingThms`, `UnpackThms`: functions without sweeps (C01-C08, C18-C21).
* `SweepGeo`, `SweepInv`, `SweepSteps`, `SweepCmp`, `SweepLink`, `SweepRun`, `SweepLoop`, `SweepStart`, `SweepEnd`, `SweepOrder`, `SweepPieces`: the invariant of the sweep.  A state keeps segments of the sweep line
  ordered at the current point, every two neighbours were checked, and pieces behind the current point
  meet in endpoints only or coincide.  The potential decreasing with every step gives termination.
  The end of it is the record `swept` (`SelectThms`): pieces made of the operands, covering them, meeting in
  endpoints or being twins (C16, C26, C27).
* `LinearMeaning`, `LinearThms`, `LinearComplete`, `LinearProps`, `NaryThms`: results of linear operations (C09-C15, C17, C35).
* `EvenOdd`, `EvenStraight`, `Flip`, `Parity`, `Counting`, `Toward`: the even-odd rule: it is constant along segments not
  meeting edges and changes by crossing an edge.  It is the only thing about regions which is needed (no Jordan theorem).
* `Labels`, `Flow`, `Erase`, `Lonely`, `LabelEnd`, `Classify`, `Telescope`, `Sides`, `Outline`: fields of events computed by the sweep are
  parities of edges below (C32, C33).  A small step `e` upwards is used in place of limits.
* `MixedThms`, `MixedComplete`, `MixedMinus`, `MixedProps`: C28-C31.
* `Locate`, `Rectangle`, `FilterThms`, `Surround`, `CoupledThms`, `Shapes`, `Polygons`: shapes and their selection by boxes (C36).
* `ShrinkThms`, `ConnectThms`, `TraceThms`, `RegionThms`, `OrientThms`: C22-C25.
* `ShapedThms`, `ShapedProps`, `Arranged`, `RegionProps`: C37.
* `Loops`, `LoopThms`, `FollowThms`, `Faces`, `SimpleThms`, `Cycle`, `TracedLoops`, `TidyThms`, `HoleyLoop`, `HoleyThms`, `HoleyProps`: contours of
  polygons are simple and bound the result (C38).  `HoleyNest`, `PointProps`: C39.
* `Beneath`, `Nesting`, `Forest`, `NestTraced`: contours get into right polygons when the edge found below the start of each edge is
  still the one below at the end.  `GeneralPos` shows that it is so for operands in a mild position.  `Noncross`: contours of a
  result do not cross each other.  `Degree`: no three edges of a result meet in a point for operands in a general position.
  `NestProps`: C42, C43; `Turning`: C44; `Reach`, `ReachProps`: C45.
* `Fill` (a contour with edges in a region lies in it), `Germs`, `Shift`, `Walks` (tracing never leaves the part of the result it started
  in), `Bridge`, `Rooms`, `Classes` (such parts are intersections of one region of each operand), `Chambers`, `ChamberProps`: C46.
* `Borders` (regions with the same points have the same contours), `Corners` (a contour is determined by its points, up to straight
  vertices, direction and start), `Ordered` (order of traced contours), `CanonProps`: C47.  Vocabulary: `SpecCanon`.
* `Nodes` (ends of swept pieces are nodes of operands), `Fragments` (selected pieces are the fragments), `NodeProps`,
  `NaryNodes` (merging): C48.
  Vocabulary: `SpecNode`.
* `MergeCuts` (divisions are at nodes only), `MergeThms` (merging of overlapping segments is total and sound): C49.
* `PartCuts` (pieces of whatever is swept are parts of the operands they belong to), `PartProps` and `PartMixed` (results
  of linear and mixed operations of any operands), `PartOne` (C50 and C51 for single segments and polygons),
  `PartSorted` (order of segments): C50.  `PartEnds` (a least event exists unless segments of the first
  operand overlap, divisions are bounded): C51.  Vocabulary: `SpecCut`.
* `ShapedComplete`, `CompleteProps`: C40.  `SeparateThms`: C34.  `QueueThms`, `QueueProps`: C41.
* `QcTac`, `SortFacts`, `Unique`, `SimpleCheck`, `Examples`: tactics, sorting, checkers, inputs of examples.
* `Prop*.v`: theorems of properties, closed by `exact`, with `Print Assumptions` and examples meeting their hypotheses.

## 5. Properties which do not hold

Found by reading the code while proving; witnesses are proved as `*_refuted`, with what does hold beside them as `*_partial`.

1. `bounding.coupled_with_segment` does not notice a segment which goes out of a box and meets its boundary in
   corners only, endpoints of the segment aside (C21), hence `intersect_multisegments` loses common segments (C11) and
   `subtract_multisegments` leaves them (C12).
2. `segments_to_multisegment` with overlapping segments may lose points or leave overlapping segments,
   for some shapes of the tree (C14, C15).
3. `shrink_collinear_vertices` may leave collinear vertices in a list of vertices folding back
   (`C23_complete_refuted`); contours with non-overlapping edges are not of this kind (`C23_applies`).
4. `bounding.coupled_with_polygon` leaves out a polygon a hole of which contains the box, hence
   `subtract_polygon_from_multisegment` leaves segments along this hole, whereas the sweep drops segments along boundaries
   (`C29_no_pieces_on_boundary_refuted`, a claim stronger than C29).
5. `below_event_from_shaped_result` may refer to an edge which is divided later at the very
   start of the edge it was found for.  The remaining part of it is then not the one below, and a hole may be put
   into a wrong polygon (`C39_subtract_polygons_points_refuted`).  This does not happen
   unless there is a point strictly inside of an edge where edges of a polygon only begin, all of them above that edge (C43);
   operands may have parts of edges in common.

The witnesses are results of the model; they were not run against the library.

## 6. Testing the theorems

`seeded/LOG.jsonl` lists edits of definitions of the model made in a scratch copy.  How to read it:

* `failed_lemmas` are the lemmas at which the build stopped.
* `theorems_failed` are the `C..` theorems whose proofs use those lemmas, found by following names in the sources.
  They lost their proofs.  This alone does not show that their statements became false: a proof script may also break
  because of an edit which changes nothing that matters, and for entries whose `claim` starts with
  "no claim broken" that is what happened.
* Entries with `witness` were checked further: the edited model was evaluated on an input meeting the
  hypotheses, and the result contradicts the claim (`witness` says how).  For entries without it this was not done.
  "none found" means that a battery of valid operands showed no contradiction; `note` then says why.
* For entries of C49, C50 and C51 of the last batch the edited definitions were put over those of the model in the files
  proving these properties only; with unedited copies put over them the same files were seen to build.
* `theorems_tightened` are the theorems made stronger after an edit was not noticed.
