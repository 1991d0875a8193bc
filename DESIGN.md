# Verification of meshmagick: design

Subject: the Python package in `/repo/meshmagick` (mesh.py, mesh_clipper.py, tools.py, rotations.py,
inertia.py, hydrostatics.py, densities.py, text formats of mmio.py, the driver of cli.py).
The properties are in `properties.jsonl`; `MANIFEST.json` maps each to the theorems proving it.

## Layout of `rocq/theories`

* `M_*.v`  model: small total Gallina functions, each with a comment citing file and lines in /repo and
  the simplifications made. No proofs.
* `S_*.v`  specifications: what a user means (distance, reflection, signed tetrahedron volume, integral over a
  triangle, border edge, text precision...). They never mention helper functions of the model.
* `P_*.v`  proofs.
* `T_*.v`  property theorems (named after the properties, e.g. `C01_...`), each proved by citing a lemma,
  followed by concrete cases meeting the hypotheses and `Print Assumptions`.

## Trusted base

* Coq 8.16.1 kernel (`vm_compute` included).
* The axioms printed by `Print Assumptions` below each theorem. They are only those of the Coq standard library
  for the classical reals: `ClassicalDedekindReals.sig_forall_dec`, `ClassicalDedekindReals.sig_not_dec`,
  `FunctionalExtensionality.functional_extensionality_dep`, and where stdlib / Coquelicot analysis is used
  also `Classical_Prop.classic` and what they bring in from the standard library (see the section at the end).
  Theorems about indices, connectivity, text and command line order are axiom free unless noted.
* The hand translation from Python to Gallina, as documented definition by definition.

Simplifications common to all geometry: numpy doubles are modelled by the real numbers `R` (no rounding, no
overflow, no NaN/inf), except in `M_double.v`, `M_dgeom.v`, `M_dclip.v`, `M_dhydro.v`, `M_dinertia.v`, `M_dbuoy.v`, `M_dplane.v`, `M_dreport.v` and `M_dbody.v` which have the roundings; integers are unbounded; arrays are lists; `print`/verbosity, names and timing are dropped.
Divisions by zero (numpy would give NaN) are excluded by hypotheses, never used silently.
Python exceptions are values of a sum type. Python set iteration order and numpy's unstable `argsort` are
universally quantified (any order / any sorting permutation).

Not modelled: VTK and h5py themselves, gmsh/pygmsh, the drawing of the viewer, messages printed on the way, argparse itself, the
operating system.

## Plan per property

A. Merging (tools.py) - `M_merge.v`, generic in the scalar type for the executable examples.
* C01, C02: invariant of the level refinement: the levels partition the permutation, members of a level are within
  atol of each other on the processed columns, equal rows never separate. Any sorting permutation.
* C03: concrete witness for closeness (refutation of the documented ideal), plus general proof that survivors differ.
* C04, C09, C11: composition with the renumbering of faces.

B. Restructuring (mesh.py) - `M_mesh.v`.
* C05, C06: extraction through `np.unique`/boolean masks; specification by corner coordinates of faces.
* C07: the three roll passes; specification by cyclic rotation. C08: list of faces; chains and vector area sums.
* C10, C12: reflection algebra; C13: filter by area.

C. Geometry - `M_mesh.v`, `M_integrals.v`, `S_geometry.v`, `S_integral.v`.
* C14: vector algebra. C15: orthogonal maps. C16: sum of signed tetrahedra; invariance by cancellation of directed
  edges. C17: concrete closed mesh. C18, C19: iterated Riemann integrals (Coquelicot `is_RInt`) over the unit triangle
  are the specification; explicit antiderivatives. C20, C21: sums of those. C22, C23: folds over lists.

D. Cache - `M_cache.v`: mesh state = vertices, faces, record of optional cached quantities; operations as in the code.
* C24: invariant by induction on histories. C25, C26: concrete histories with differing answers.

E. Connectivity - `M_connectivity.v`.
* C27, C28: characterisation by induction. C29, C30: walk over an insertion ordered dictionary, invariant on consumed
  edges. C31-C34: flood fill with explicit work list; set orders quantified. C35: definition and witness.

F. Plane, rotations - `M_rotations.v`, `M_plane.v`: C36-C47, trigonometry over R; `atan2` defined piecewise with a
specification lemma (polar coordinates).

H. Clipper - `M_clipper.v`: combinatorial core (position pattern -> new faces and requested intersections) and its
geometric instance. C48-C54. C50 by convex combinations.

I. Inertia - `M_inertia.v`: C55-C59, field identities and inequalities.

J. Hydrostatics - `M_hydro.v`: C60, C61 polygon sums against a signed fan of exact triangle integrals; C62-C64
algebra; C65-C67 loops with the hydrostatic evaluation as an arbitrary function (oracle).

K. Text formats - `M_text.v`, `M_mmio.v`: character level printing and parsing. A number is a sign and a fraction (-0 is
kept); `%w.6f` and `%.6E` round the exact value half to even; the double that `float()` gives for a decimal is an arbitrary
function `dbl`, and the theorems that compare numbers ask `doubles dbl` (relative error at most 2^-53 in the normal range).
C68-C74. C75, C76: association lists over strings. C77, C78: `M_cli.v`, the driver as a function of an option record.

Everything in the list can be expressed in the model; none is declared not applicable.

## Notes on the model, file by file

* Exceptions that Python code cannot raise by itself but the model needs: `OutOfFuel` (loops whose termination is not
  structural; theorems show it is never returned), `NotANumber` (a numpy operation that would give NaN),
  `PlainException` (`raise Exception`).
* `M_cache.v`: a mesh is a state; there is no aliasing between meshes (`M_arrays.v` has it, and `C119_history` is the link), and a history of calls stops at the first exception.
* `M_clipper.v` (mesh_clipper.py, whole class `MeshClipper` but the plotting and the `verbose` prints): corners of a face
  are classified by three tests that all fail when a distance is exactly the tolerance, as in the code. The theorems
  need `settled` (no corner exactly at the tolerance) except `C51_exact_tolerance` and `C48_*`. The intersection of an edge with the plane is
  taken from `M_plane.v` and its division never has a zero denominator there. Merging uses any sorting permutation.
  Displacements by the two mergings are explicit in the statements (`clip_move`). Dictionaries are insertion ordered
  association lists; `popitem` takes the last inserted entry.
  What is left of a face is described with convex hulls of corners, so C49, C50 and C82 are about triangles and
  planar convex quadrangles; warped quadrangles are covered by C48, C51-C54, C81 and `C49_alternating_kept_above` only.
  `waterline` (S_clipper) is the list of segments cut face by face from the source mesh, without the clipper.
* `M_hydro.v` (hydrostatics.py:24-205 `compute_hydrostatics`, 208-270 `displacement_equilibrium`, 273-353
  `full_equilibrium`): the mesh is never mutated in the model (the code works on copies). `NotANumber` is returned where
  the code would go on with NaN: division by a zero volume, density, gravity or waterplane area, a face with zero normal. The
  report printer (356-520) is in `M_print.v`.
  `floats_well` gathers what is asked of the mesh once put in position: closed, triangles and planar convex quadrangles,
  no corner exactly at the tolerance, corners within the tolerance exactly at the sea level, no pinched face, points far enough apart for merging to do nothing, at least one face crossing, and no
  point starting two segments of the waterline. Specifications (S_hydro, S_report): immersed triangles cut face
  by face at z = 0, iterated integrals over cones and flat triangles, fluxes through immersed triangles, and `fills`
  (triangles whose sides cancel down to given segments).
  P_barge/P_afloat (box cut at any height) and P_vee (V section) are the concrete cases.
* `T_equil.v`: the two searches are characterised for any mesh (C65_result, C65 failure in C66, C67_result, C67_failure)
  as walks whose steps are defined in S_equil from the values of the hydrostatics; what the code prints is dropped. In
  `displacement_equilibrium` the handler reads `err.args[2]` whereas the clipper raises errors with two arguments or
  one: IndexError.
* `M_text.v`, `M_mmio.v` (mmio.py: readers and writers of .mar, .nem, .nat, .gdf, .pnl and the writer of .stl): a file is its text, a list
  of 8 bit characters; writing always succeeds; "\r" is not translated. Not modelled: infinities and NaN, underscores in
  numbers, comments and blank lines in `np.genfromtxt`, the warning printed by write_MAR, the computation of the normals in STL files
  (any text without newline). The end of the file gives no words, as in Python, and the loop of load_GDF that never ends is
  `OutOfFuel`. Readers return arrays of one or two dimensions, as numpy builds them from rows. The specification (`S_text.v`) is over the rationals `Q`, and all
  these theorems are closed under the global context.
  The parts that go through VTK and h5py are in `M_vtk.v`; version 4 of .msh is not modelled (library gmshparser).
* `M_regex.v` (the part of Python's `re` that mmio.py uses): a backtracking engine in continuation style. A pattern is matched
  by trying alternatives in order, `*` taking as many turns as it can, `*?` as few; a turn that consumes nothing ends the loop.
  `search`, `findall` and `finditer` go through the text from left to right. `P_regex.v` shows the engine sound and complete for a declarative
  reading of patterns (`run_sound`, `run_complete`); which of several matches is chosen is given by the engine only.
  `\s` and `\d` are those of ASCII.
* `M_files.v` (mmio.py: readers and writers of .hst, .tec, .dat, writers of .vtk and .obj, readers of .rad and .msh version 2):
  same conventions as `M_mmio.v`; the date and the names written in headers are parameters. `load_MSH41` (gmshparser) is any function.
* `M_inp.v` (mmio.py:246-413 `load_INP`, with `os.path.dirname` and `os.path.join`): other files are read through the disk; the sum
  of two doubles is any function. `M_formats.v` keeps the reader of .inp as any function of the text, because `load_INP` also
  needs the disk and the file name.
* `M_vtk.v` (mmio.py: readers and writers of .vtu and .vtp, readers of .vtk, .obj, .stl, .wrl and .med; mesh.py: `quick_save`,
  `_vtk_polydata`): what VTK and h5py read from and write to files is taken as faithful: a dataset written and read again has the same
  points and cells. Points of VTK are single precision: `single` rounds a real number to 24 bits to nearest even with gradual underflow and without
  overflow (Flocq). A dataset is a list of points and of cells, a cell a list of point numbers; a scene of a .wrl file is the list of the
  datasets of its actors; a .med file is the list of its items, names and arrays, in the order of `visititems`. What numpy leaves in an
  uninitialised array is any value. Arrays of connectivities of a .med file hold integers.
* `M_print.v` (hydrostatics.py:356-520 `get_hydrostatic_report`, inertia.py:198-211 and mesh.py:423-450 `__str__`): the values printed are
  rational numbers and the arithmetic done while printing (degrees, products, quotients, square roots) is any functions; what is printed is proved to be the rounding of
  their results. Not modelled: infinities and NaN.
* `M_hsold.v` (hydrostatics_old.py, the older classes `Force` and `Hydrostatics`, which no other module imports): arrays that Python code
  changes in place (points of forces, centers of gravity) live in a store, so that sharing is visible: two names of one array are
  one place. A method returns its result or an exception, and the object as it is then. Random numbers of the restarts
  are any function of the restart number. The search of the equilibrium counts its passes down from `fuel`; `C112_ends` shows that the count never runs out
  when there are at least two iterations, and `C112_single_refuted` that with one iteration no count is enough (the loop of the code never ends).
  Left out: names of forces and messages; the viewer is in `M_viewer.v`. `S_hsold.v` has the specification: loads carried by a rigid motion, the
  balance of forces and moments, the verdict of a return code, and agreement with `M_hydro.v`. `apart` says that forces and the
  center of gravity share no array; `C115` and the theorems on `made` bodies need no such hypothesis, because every force of a `history` is made with an array of its own.
* `M_oldreport.v` (hydrostatics_old.py:1193-1297 `get_hydrostatic_report`): as in `M_print.v`, the values printed are any rational numbers
  with a sign and division is any function; the link from the data of `M_hsold.v` (real numbers) to the numbers printed is not modelled.
* `M_arrays.v` (mesh.py: the array attributes behind `M_cache.v`): arrays of points, faces and numbers live in a heap, a mesh holds
  references, and each method either writes into its arrays or replaces them, as in the code; the values computed are those of
  `M_mesh.v`, `M_geometry.v` and `M_connectivity.v`. A program (`action`) creates arrays, writes into any array, constructs, copies,
  adds and extracts meshes, assigns and calls. It stops at its first exception, an array keeps its number of lines when written, and
  ids of triangles, connectivity and surface integrals are values. Ids and names of meshes are modelled too (`C119`, `C120`).
* `M_clipobj.v` (mesh_clipper.py:26-113 and 188-335, the object around `M_clipper.v`): meshes, planes and clippers live in stores and a
  reference is a position in a store, so that sharing is visible; the default plane is the first plane. The dictionary of results is filled stage by
  stage, so that what is left after an exception is visible. Left out: names, messages, debug files, and changes made by the user to the meshes that a clipper returns.
* `M_double.v` (tools.py:6-113; mesh.py: merge_duplicates, mirror, symmetrize, translate, scale, normals, distances to planes and
  intersections of edges): the same functions in double precision. `fl` is Flocq's rounding to nearest even with 53 bits and gradual
  underflow; exponents are not bounded above (no infinity) and zero has no sign. numpy does not say in which order np.dot and
  np.sum add, so `sums` allows every order, every grouping and fused multiply-adds, and the theorems are for any function `fdot` that
  computes one of them. C121-C124 relate these functions to the exact ones of the other files: equal results where that is true,
  bounds on the errors elsewhere. Flocq brings no axiom of its own.
* `M_dgeom.v` (mesh.py: _faces_properties, the first three surface integrals, volume): the functions of `M_geometry.v` with the
  roundings of `M_double.v`, sums in any order. A division by a norm that is rounded to 0 gives NaN in numpy and any number in the
  model: the theorems of C125 on normals, centers and volumes are for faces large enough that this does not happen.
* `M_dclip.v` (mesh_clipper.py): the functions of `M_clipper.v` with the roundings of `M_double.v`. The distances of the vertices are
  computed with a sum per line of the array, in any order (`fdots`), the cut points with another one (`fdot`). C126 is for meshes whose
  points are not at distances where roundings decide (`firm`, `well_spread`); elsewhere nothing is said.
* `M_dhydro.v` (hydrostatics.py:24-48 and 169): the position of the mesh, clipping, the wetted surface, the displaced volume and mass, with
  the roundings. C127 bounds the distance to the exact quantities of the immersed body, given as in C85. The waterplane is in `M_dplane.v`, stiffness
  and metacentric radii are in `M_dreport.v`.
* `M_dinertia.v` (mesh.py: _compute_triangles_integrals, eval_plain_mesh_inertias, eval_shell_mesh_inertias): all fifteen surface integrals and
  the inertias of full and hollow bodies with the roundings. C131 bounds the distance to the exact integrals over the enclosed volume and C132 to those over
  the surface, the products of C132 up to the error term of C19. The changes of the point of reduction (inertia.py) are in `M_dbody.v`.
* `M_dbuoy.v` (hydrostatics.py:34-46 and 152-153): the center of buoyancy, in position and back in the frame of the mesh, with the roundings. C133
  bounds the distance to the centroid of the immersed volume of C85.
* `M_dplane.v` (hydrostatics.py:34 and 50-105): the sums over the sides of the waterlines and their extents, with the roundings. C134 bounds the distance to the
  exact integrals over anything that fills the waterlines, the product integral up to the term of C61. The message of lines 73-74 is dropped.
* `M_dreport.v` (hydrostatics.py:107-149, 178-179 and 183): flotation center, metacentric radii and heights, stiffness, lengths at the waterline, with the roundings.
  C135 takes the errors of C127, C133 and C134 as they are and bounds those of what is derived; `C135_case` chains all of them on a box. With at_cog the integrals are
  about the center of buoyancy as computed, with its errors. Not in double precision: the overall lengths and draught of the clipped mesh and the inertia of lines 196-203.
* `M_dbody.v` (inertia.py:83-102, 117-123 and 134-136): shift_at_cog, at_cog and the setter of reduction_point, with the roundings. C136 bounds the distance to
  what these formulas give exactly. For shift_at_cog that is not the inertia at the center of gravity: the sign is wrong even without roundings (C56).
* `M_viewer.v` (MMviewer.py; mesh.py:917-924 `Mesh.show`; hydrostatics_old.py:1301-1352 `Hydrostatics.show`): the renderer is the list of what is drawn
  with the identity of each actor. Left out: cameras, windows, mouse, texts, the keys that VTK handles itself, versions of VTK up to 5, and arrows scaled by zero.
  `S_viewer.v` says from the history of the calls alone what is to be in the picture. `C128_scene` covers keys and additions; calls of `normals_on`, `normals_off`
  and `plane_on` by programs break the attributes of the viewer, as the `_refuted` theorems of C128 show.
* `M_formats.v` (mmio.py: `extension_dict`, `know_extension`, `load_mesh`, `write_mesh`; densities.py): the readers and writers
  of formats that are not modelled are any functions; a disk is a function from names to texts, without directories or
  links, and opening a file for writing succeeds. What a writer that fails leaves in the file is any text. Letter case is
  that of ASCII letters. `os.path.splitext` is the POSIX one.
* `M_cli.v` (cli.py, `main` after `parser.parse_args()`): the record `options` has the attributes that change what is
  written. Left out: options that only print or show (quality, list_medium, plain_inertia, shell_inertia, info, show, quiet:
  none of them changes vertices or faces, and none comes before a step that reads the cache), lids (gmsh), unused options, and negative
  vertex numbers in files. A zero normal of a plane (NaN in numpy) ends with `NotANumber`. The text of the report and the double nearest to
  a real number are any functions.
  The driver works on meshes with caches (`M_cache.v`); `S_cli.v` describes the same run with plain meshes and functions applied in order,
  and `C77_order` is the refinement between the two. `C92_*` ask that the numbers read are doubles other than -0: coordinates of meshes
  are real numbers in the model, so that the sign of a zero is lost between reading and writing. C91 is about the words of a plane.
