# Formal model of plycutter in Rocq (Coq 8.16.1)

## Layout

* `rocq/theories/Base`   arithmetic and list conveniences (no modelling content)
* `rocq/theories/Model`  the model: one file per Python file, every definition cites `/repo` lines; no proofs
* `rocq/theories/Spec`   small independent specifications (point sets, point-on-segment, winding number, ...)
* `rocq/theories/Proofs` lemmas and proofs
* `rocq/theories/Props`  the property theorems only: statement, `exact lemma`, `Print Assumptions`, examples
* `properties.jsonl`, `MANIFEST.json`, `seeded/LOG.jsonl`

## Modelling decisions

* `gmpy2.mpq` is `Qc` (canonical rationals; Leibniz equality = numeric equality). Geometry code asserts that
  coordinates are mpq, so no floats occur there.
* Infinities in `Geom1D` are `ext = NInf | Fin q | PInf`; the float NaNs of a fresh `AABB` are an explicit constructor.
* Exceptions/assertions are values (`result A = Ok a | Err e`). A function that mutates returns the new value.
* Iteration order over Python sets/dicts and random numbers are explicit parameters (oracles), universally
  quantified in the theorems.
* Floats proper (trimesh/shapely input, `math.sqrt` in `buffer_of_size`, `rng.uniform`) are not computed: they are
  parameters with their documented range as hypothesis, stated in the theorem.

## Plan per property

| id | model | proof |
|----|-------|-------|
| C01-C10 | `Model/Geom1d.v`, whole file geom1d.py over `ext` | merge-loop invariant over sorted lists; half-open point-set semantics; canonicity by induction on normal-form lists |
| C11, C65 | `Model/Plytypes.v`, Python numbers as a tagged sum (int, mpz, Fraction, mpq, float, inf, nan) | case analysis + C01 lemmas |
| C12, C13 | `Model/Aabb.v` with NaN boxes | invariant over the list of points; separating axis: explicit witness parameter |
| C14-C20 | `Model/Primitive2d.v` | field/nra identities; induction on the vertex list; telescoping sums |
| C21, C22 | `Model/Frangle2d.v` | octant case split |
| C23 | `Model/SegmentTree.v` | tree invariant (contiguous leaves), induction on tree; permutation with brute force |
| C24 | `Model/Quadtree.v` | induction over insertions with a node-covering invariant |
| C25-C28 | `Model/CellMerger.v`, set order as oracle | half-edge multiset invariant, Eulerian walk |
| C29-C32 | `Model/Scan2d.v` | shear algebra; sweep invariant |
| C33-C36 | `Model/Arrangement2d.v` | frangle lemmas; permutation orbits; segment-tree theorem |
| C37-C43 | `Model/Geom2d.v` | locate algebra, winding constancy, list induction |
| C44-C48 | `Model/Sheetplex.v` | list/string lemmas; parallelogram location |
| C49-C53 | `Model/Sheetbuild.v` | invariant over operation histories using C04 |
| C54-C58 | `Model/Heuristics.v` | invariants over the draw loop; parity counterexample; cluster invariant |
| C59, C60 | `Model/Canned.v` | case analysis over step outcomes |
| C61, C62 | `Model/Writer.v` | running-offset invariant; NaN counterexample |
| C63, C64 | `Model/CreateSheets.v`, float geometry as oracle predicates | consumption invariant |
| C66 | `Model/Plytypes.v` | decimal printing injectivity |

| C67, C68, C72, C73 | `Model/Canned.v`, `Heuristics.v`, `Sheetbuild.v` composed | invariant of the whole run: creation, twelve steps |
| C69-C71 | `Model/Arrangement2d.v` | exact subdivision graph; every face has a sample point; fuel bounds |
| C74-C77 | `Model/CreateSheets.v` | fold over triangles and sections; composition with C72 |
| C78 | `Model/Geom2d.v` (buffer) | every ribbon vertex is `edge end + octagon vector`; a winding number is zero outside the hull |
| C79-C81 | `Model/Geom2d.v` (area, operators), `Model/Arrangement2d.v` (poly_cells) | area of a chain of rings = integral of its winding numbers (`AreaP`); the selected cells' half-edges have winding 1 inside and 0 outside (`LevelP`), merging only cancels opposite pairs (`MergerKeepP`, `PolyCellsP`), so results are flat (`FlatP`) |
| C82 | `Model/Geom2d.v` (transformed_with) | orientation and fan winding numbers scale by the determinant |
| C83 | `Model/Geom2d.v` (buffer) | the ribbon pieces cover every swept parallelogram and every corner sector of the octagon (`RibbonP/Q/R/S`, `OctagonP`); `Spec/Simple.v` says what a simple ring and a tidy geometry are; lower bound by pieces, upper bound as in C78 |
| C84, C85, C86 | `Model/Geom2d.v`, `Model/Arrangement2d.v`, `Model/CellMerger.v` | `Spec/Crisp.v` says what a limit of inside and outside points is, when a ring runs back along itself, and what Boolean expressions over geometries are; a kept half-edge has a chosen cell on one side and none on the other (`CrispP`), so the region off finitely many segments determines the answer everywhere (`CrispQ`) |
| C87 | `Model/Arrangement2d.v`, `Model/Geom2d.v` | clean rings make the half-edge graph bridgeless, so each traced cell is a ring of winding 0/-1 or 0/1 on one side (`NestP`); containers are found by counting ray crossings (`ArrTotalP/Q`, `ArrRayP`, `NestOrdP`); `ArrTotalR` collects which calls can raise |
| C88, C89 | `Model/Primitive2d.v`, `Model/Geom2d.v` (polygon) | `Spec/Jordan.v` says what a simple polygon is and what a path off it is; walking along one side of the ring (`JordanP`) shows two classes at most, the winding sum separates them; `JordanQ` has a checker for simple polygons used in the examples |
| C90 - C94 | `Model/Heuristics.v`, `Model/Canned.v` | `Spec/Steps.v` (long pieces of a point set); `StepsP` follows each step of a run: ranges move only from ok to chosen or away (`moves`), so what a step settles stays settled; C93 is for exact `random_min_max` |
| C95 - C96 | `Model/Geom2d.v` (buffer) | `Spec/Crisp.v`, `Spec/Hull.v`, `Spec/Simple.v`; `BufSharpP/Q`: every ribbon of the Minkowski sum is a chain of clean quadrilaterals, so every union, intersection and difference in `buffer` is slit-free and C83 extends to the points on the segments it had to exclude |
| C97 - C98 | `Model/Sheetbuild.v`, `Model/Heuristics.v`, `Model/Canned.v` | `Spec/Crisp.v`; the trace of a run (`HeuStepsP.op_closed`) is parametrised by a class of geometries closed under the operators; `RunSharpP` instantiates it with the clean geometries; two slit-free geometries that differ at a point differ at a generic point nearby |
| C99 - C100 | `Model/Sheetplex.v` (make_fingers), `Model/Sheetbuild.v` (_check) | `Spec/Fingers.v`, `Spec/Area.v`; a geometry covered by others has at most their total area (`cover_bound`); the forced check bounds what the ranges still ok cut out of the opposite sheet, and chosen exceeds ok by less than 1e-7 |
| C101 - C105 | `Model/Heuristics.v` (the steps that trim), `Model/Geom2d.v` (project_to_1d) | `Spec/Trim.v`: polygonal paths, closed finger bands; each key is handled once by a step (`fold_once`); the intermediate value on a ring gives the shadow (`ring_crosses`, `project_dense`); `Props/IrrelevantProps.v`: what choose_obviously_irrelevant keeps |
| C106 - C108 | `Model/Geom2d.v`, `Model/Canned.v`, `Model/Writer.v` | `Spec/Cut.v`: edges by position, crossing, material and waste beside an edge; the rings of an operator's result are edges of a planar subdivision, each used once (`arrangement_cut`); every geometry of a run ends in an operator (`*_made` lemmas of `RunSharpP`) |
| C109 - C111 | `Model/CreateSheets.v`, `Model/Canned.v`, `Model/Writer.v` | `Spec/Cut.v`; a triangle that `polygon` accepts is simple; the premises of C97 and C108 hold of a sheetplex made from a mesh, apart from the shape of the sections (`mesh_plex`) |
| C112 - C114 | `Model/Frames.v` | `Spec/Space.v`: a sheet is a slab of space, `footprint` draws a point of space on it; Cramer's rule and the Lagrange identity give the corner points and the direction of a joint (`plates_cross`) |
| C115 - C117 | `Model/Frames.v`, `Model/Sheetbuild.v`, `Model/Canned.v` | `Spec/Space.v`; both sheets measure the same coordinate, so a position free on both sides is carved out of both (`Proofs/AssemblyP.v`); the outline buffered by 1 is within the one buffered by more (`Proofs/SupportP.v`) |
| C118 - C119 | `Model/Heuristics.v` | `Props/InteractProps.v`: `overlap_at`; the interactions as a set, the effect of a decision on every position of every side (`Proofs/InteractP.v`) |
| C120 | `Model/Canned.v`, `Model/Heuristics.v` | `Props/CompleteProps.v`: bands of chosen ranges against sheet_ok and sheet_chosen; the invariant `full` is in `Proofs/FullP.v` |
| C121 - C122 | `Model/SpaceMesh.v` (create_sheets on rationals, joined to the frames) | `Spec/Shadow.v`: triangles as weighted means of their corners; a polygon of three points is its triangle (`Proofs/TriangleP.v`), unions with their boundaries (`union_closed`), Cauchy-Schwarz for the distances |
| C123 | `Model/Canned.v`, `Model/Frames.v` | `Props/GapProps.v`: C93 and C120 together, as a statement about the points inside both plates of a joint |
| C124 | `Model/RaySlow.v` (the slow ray query) | `Props/RayProps.v`; a hit is defined with `on_seg` and `cross` |
| C125 | `Model/Sheetbuild.v`, `Model/Canned.v` | `Props/PlainProps.v`: what create_sheetbuild chooses away from the bands of the joints, kept by every step (C98) |
| C126, C127 | `Model/SpaceMesh.v`, `Model/Canned.v` | `Props/MeshAssemblyProps.v`: C111, C117, C123, C125 for the sheets of a mesh; `cuts_of` says the sections are cuts of a solid |
| C128 | `Model/Canned.v`, `Model/Heuristics.v` | `Props/OutcomeProps.v`: exceptions of every step on every state of a run (`Proofs/OutcomeP.v` to `OutcomeT.v`); also `check_now_exact` for C50 |
| C129 | `Model/CreateSheets.v`, `Model/SpaceMesh.v`, `Model/Canned.v` | `Props/MeshOutcomeProps.v`: exceptions of reading a mesh, and of main on a mesh |
| C130 | `Model/Heuristics.v`, `Model/Canned.v` | `Proofs/OutcomeU.v`, `Props/MultiFailProps.v`: why the cluster step raises AttributeError or Exception |
| C131 | `Model/Heuristics.v` | `Props/TakerProps.v`: which sheet takes a cluster and when the cluster grows |
| C132 | `Model/Heuristics.v` | `Props/NeighbourProps.v`: which side gets which finger of a range, from what is chosen next to it |
| C133 | `Model/Draw.v` | `Props/DrawProps.v`: what to_mpatch and show_sheet fill |
| C134 | `Model/Sheetbuild.v` | `Props/FailMsgProps.v`: the message of the last assertion of a joint |
| C135 | `Model/Heuristics.v`, `Spec/Double.v` (float64 rounding) | `Props/RoundProps.v`: error bounds of the spans |
| C136 | `Model/Heuristics.v`, `Spec/Double.v` | `Props/RoundProps.v`: refuted, min width 3.2 on a range of 9.6 |
| C137 | `Model/Heuristics.v`, `Spec/Double.v` | `Props/RoundAssignProps.v`: what stays undecided, with error bounds |
| C138 | `Model/Canned.v`, `Spec/Double.v` | `Props/RoundRunProps.v`: C93 and C123 with error bounds |
| C139 | `Model/FstrFull.v` | `Props/FstrFullProps.v`: refuted for a Geom1D; exactly when a string is returned |
| C140 | `Model/Heuristics.v` | `Props/SwapProps.v`: widths the wrong way round |
| C141 | `Model/Sheetbuild.v` | `Props/MapProps.v`: maps of geoms |
| C142 | `Model/Seeds.v` | `Props/SeedProps.v`: the random seed |
| C143 | `Model/Canned.v`, `Model/SpaceMesh.v` | `Props/RoundMeshProps.v`: float64 runs on a mesh |
| C144 | `Model/Heuristics.v` | `Props/SwapProps.v`: widths of zero |
| C145 | `Model/Canned.v`, `Model/Heuristics.v` | `Props/WidthRunProps.v`: whole runs with such widths |
| C146 | `Model/Writer.v` | `Props/DxfProps.v`: any sheets |
| C147 | `Model/OutFile.v` | `Props/OutFileProps.v`: the output file |

Where the faithful model falsifies a property the theorem is named `..._refuted` and gives a witness. In
`MANIFEST.json` such a property has status "proved" with the `_refuted` theorem listed first and the note says that the
property is false of the code; the other theorems listed are the part that does hold (suffix `_partial` when they are a
weakened form of the statement).

## What is modelled, file by file

| file | modelled | not modelled |
|------|----------|--------------|
| `plytypes.py` | FractionFromExact(OrInf), fstr (exact: `Model/Fstr.v`; all objects: `Model/FstrFull.v`), fastr | totuple, gmpy2.f2q; float() and str() of a float are arguments |
| `geom1d.py` | whole class | |
| `aabb.py` | whole class, NaN boxes included | `__repr__` |
| `types2d.py`, `primitive2d.py`, `frangle2d.py` | everything | |
| `segment_tree.py`, `pmr_quadtree.py`, `cell_merger.py` | everything | `__repr__` |
| `scan2d.py` | everything | `_extra_checks` (switched off in the code), `__repr__`, `__hash__` |
| `arrangement2d.py` | `__init__` (edges, overlaps, splitting at intersections, vertices, tracing, sample points, nesting of negative cells), ray queries (the slow one too, `Model/RaySlow.v`), cell_points, poly_cells | find_cell_hierarchy, find_cell_points_new, qtree, cell_topology, the code after `return` in poly_cells: all dead |
| `geom2d_simple_holes.py` | everything, from_shapely included; `math.sqrt`+f2q is the argument `fsqrt` | repro, logging, the code after `return` in _minkowski_convex_op |
| `geom2dbase.py` | rectangle; the interface; the paths of to_mpatch, show2d (`Model/Draw.v`) | matplotlib, alpha, line width, the view |
| `sheetplex.py` | SheetPlex lookups, limit, sides/opposite, project_to_1d, make_fingers; Sheet.normal/offset/midplane/project_point4 in exact arithmetic (`Model/Frames.v`) | fields holding only floats, rounding |
| `create_sheetplex.py` | find_all_facets, create_sheets, facet status, create_intersections, create_inter_side, names; the planes of a sheet and the line two sheets cross in, in exact arithmetic (`Model/Frames.v`, C112 on) | numpy/trimesh/shapely float results: arguments without assumptions, except in C112 on |
| `sheetbuild.py` | everything that changes or checks state; show_sheet (`Model/Draw.v`) | `dbg` |
| `heuristics.py` | all steps used by canned_1, random_min_max | select_all (raises at once), logging |
| `canned.py`, `command_line.py` | canned_1, main's control flow, output name | argparse, STL reading, do_show |
| `writer.py` | placement and polylines | the DXF library |

## Simplifications that a reader should know

* Python generators are the lists of what they yield; the one place where laziness is visible (the segment tree's
  iterator, used up after one pass) is modelled explicitly and has its own theorem.
* Sets, dicts: association lists / duplicate-free lists; every order the interpreter may choose is read from an
  oracle stream and the theorems quantify over all streams. The same holds for the random generator.
* `SortedList`/`SortedDict` bisections are linear scans. For the sweep this is justified by a theorem
  (`active_fully_sorted`: the list is sorted whenever it is searched).
* Loops and recursion run on fuel. `operations_end`, `buffer_ends`, `sweep_finds_all`, ... show that the fuel given
  never runs out, so `OutOfFuel` is not an outcome of the model.
* numpy object arrays are lists of rationals. Float arrays occur only in create_sheetplex.py, sheetplex.py (planes) and
  random_min_max; there the arithmetic is an argument (any functions). In random_min_max it is one rounding function applied
  to the exact result of each operation (gmpy2 may round an exact operand first; C135 bounds the error of each operation,
  and the witness of C136 fails either way). C54 is about exact arithmetic, C135 to C138 and C143 about rounded.
* `np.random.RandomState(seed)` and `rng.randint` succeed in `Model/Heuristics.v`: numpy's ranges (seed 0 to 2**32-1, counts below
  2**63) are not checked there. `Model/Seeds.v` has the check of the seed and C142 shows what it changes.
* C112 on speak of sheets in space. There float64 numbers are exact rationals (no rounding), `np.linalg.norm` is an
  argument assumed right on the cross products that occur, `np.linalg.lstsq` is the closed form of its documented result and
  trimesh's `to_3D` is assumed to be a rotation that takes the z axis to the normal (`section_frame`).
* `pathlib.Path` is the POSIX one of python 3.7 to 3.13, written out in `Model/OutFile.v` from its documentation (C147). A final dot
  starts no extension there; python 3.14 changed that.
* `pyrsistent` records and maps are immutable values. Persistent-map iteration order is an argument.
* Memory, stack depth (Python's recursion limit), time and the interpreter's integer/rational performance are outside.

## Facts about the code found while modelling

1. `Geom1D.locate`'s docstring example contradicts the code (C03); `simple_polygon_area` is positive for *clockwise*
   rings, the docstring says the opposite (C16).
2. `SegmentTree1D.stab` returns a one-pass iterator (C23).
3. `CellMergerSlow` can fail its own assertions for some set iteration orders (C25, C27), hence `|`, `&`, `-` are not
   total functions, not even on polygons with simple outlines (C87 has a witness of three). When they return, the result is right (C38).
4. Tracing of cells raises AssertionError when a vertex has a single edge ("dangling"); Geom2D values never produce one.
5. A positive 2-d buffer deletes an island that lies inside a hole of another polygon (C42).
6. `Geom2DBase` documents `^` and `~`, nothing implements them.
7. `SheetPlex.limit` always raises AttributeError (builtin `iter` used as a dict) (C45).
8. `unchoose_interside`: when its assertion fails the message expression itself raises AttributeError.
9. `choose_interside` tolerates 1e-6 of overlap, so both sides may choose a sliver (C50).
10. `random_min_max`'s last assertion is one-sided; its parity adjustment is lost because `randint` draws the number of
    fingers (C56: the last finger need not alternate).
11. A sheet with empty geometry makes the x offset NaN for every later sheet in the DXF (C62).
12. The command line never sets `return_on_failure`, so any failing step is reported as KeyError (C60). With it, a failing
    creation raises UnboundLocalError; `show=True` raises TypeError after the first step (C59).
13. `--only_sheets` is passed as a string, i.e. a set of characters: no sheet is ever selected (C76).
14. `fstr(set())` and `fstr({})` coincide (C66).
15. create_sheets takes the cross-sections even for facets that do not become a sheet; a "Null slice" there raises.
16. `project_to_1d` of `make_fingers` is off by |d|^2 when the direction is not a unit vector (C48 needs the unit frame).
17. create_sheetbuild looks for finger positions only within 1000 of a joint's origin, so sheets that cross farther away keep a
    common corner (C116).
18. create_sheetbuild drops a piece that is supported on both sides but lies in a hole of the support (a loose square inside a
    frame); the run can still end with ok=True (C125).
19. The extra connection found for a cluster (heuristics.py:301-338) is not kept clear of the other clusters. If a later
    cluster overlaps it by little enough to pass the area assertions, `unchoose_interside` fails, and with AttributeError
    because the message of its assertion calls `area` on a Geom1D (C130, witness with an overlap of 1e-7).
20. `Geom1D.__fstr__` passes the keyword `approx` on to `fastr`, which takes none. So the message of the last assertion of
    `_check` cannot be made, and a failing check raises TypeError there instead of AssertionError (C134, C139).
21. `random_min_max` asserts `low <= hi` on rounded numbers: `--min_finger_width 3.2` on a range of length 9.6 stops every
    run with an AssertionError (C136).
22. A `--random_seed` outside 0 .. 2**32-1 is accepted by the command line and makes every run end with KeyError (C142).
23. Without `-o` an input called `something.dxf` is also the output, and is overwritten (C147).

## Trusted base

* Coq 8.16.1's kernel, `coqchk`, the OCaml compiler they were built with, and `vm_compute` for closed examples (coqchk
  re-checks these without the VM).
* No axioms: `Print Assumptions` under every property theorem prints "Closed under the global context". Functional
  extensionality, classical logic, proof irrelevance and the reals are not used; `Qc` equality is Leibniz equality by
  canonicity with decidable proofs.
* The reading of `/repo` into `Model/`: the code was not run. Each definition cites its lines. Mutation tests
  (`seeded/LOG.jsonl`) check that the theorems notice wrong models, not that the model equals the code. A whole run of the model's
  `canned_1` on the two sheets of `AssemblyEx` (Props/AssemblyProps.v) was evaluated once with `vm_compute`: ok=True, five alternating
  fingers. It takes 50 s with the VM, too long for coqchk, so it is not stored as a theorem.
* The specifications in `Spec/` and the statements in `Props/`.
