# Formal model of gmlewis/stldice in Rocq (Coq 8.16.1)

The model and proofs are in `rocq/theories`. The properties are in `properties.jsonl`, the mapping from
properties to theorems in `MANIFEST.json`, mutation experiments in `seeded/LOG.jsonl` (harness
`seeded/run.py`, mutants `seeded/mutants.json`). `tools/` has the scripts that write
`properties.jsonl`, `MANIFEST.json`, this file, and the Coq tables generated from the Go tables.

## 1. Trusted base

* **Coq's kernel** (8.16.1), as run by `coqc` and `coqchk`. No axiom, `Admitted`, `Parameter`, plugin, module
  type or functor is declared here. `vm_compute` (part of the kernel) is used for closed computations.
* **`Print Assumptions`**: every theorem of `MANIFEST.json` is *closed under the global context*, except the
  binary64 theorems listed in section 5, which rest on the standard library's axioms for the real numbers
  (`ClassicalDedekindReals.sig_not_dec`, `ClassicalDedekindReals.sig_forall_dec`,
  `FunctionalExtensionality.functional_extensionality_dep`, `Classical_Prop.classic`) because Flocq states
  rounding over `R`.
* **Libraries**: Coq's standard library, std++ (`gset`, `gmap`, list lemmas), Flocq (binary64).
* **The reading of the Go code.** Every definition of a model file cites the lines it models and says what it
  leaves out. Nothing checks this mechanically: `/repo` could not be built or run here. The exceptions are
  the lookup tables of marching cubes and of the manifold mesher (256 entries each and the face templates),
  which `tools/` translated from the Go source, so no typing error can enter there.
* **Assumptions about code outside `/repo`**, all visible as definitions or hypotheses:
  - `fauxgl`: `BoundingBox`, `Box.Size`, `Lerp` (`a + (b-a)*t`), `FixNormals`, `SaveSTL`,
    `LoadSTL`/`ParseFloats`, `NewTriangleForPoints` are modelled from their contract.
  - `fmt` with `%g` and `strconv.ParseFloat`: a record `FloatText` of two functions with the round-trip law;
    it appears as a premise of the theorems that need it, and `FloatTextQ.v` gives an instance, so the premise can be met.
    `%v`, `%d`, `%04d` of integers and `Atoi` are defined and proved to round trip.
  - `regexp`: the four header expressions are written as parsers.
  - `append`: the capacity of a grown slice is an arbitrary function, so aliasing of `vs.Voxels` in
    `vshell.Add` is covered for every growth policy.
  - channels, `sync.Mutex`, `sync.WaitGroup`: small-step semantics in `Chan.v`, `ForkJoin.v`, `StlMerge.v`,
    `MasterModel.v`, `SvxRace.v`; sequentially consistent. The races the code has are shown as explicit
    interleavings (C46) or excluded by a theorem (C29).
  - ZIP, PNG, XML: writing and then reading an entry, an image or an element returns it; only names, order,
    pixels and attributes are modelled.
  - gleam (`stldice-mr`) delivers each emitted value once to the reducer of its key, in any order; gRPC
    delivers a request and its reply or an error.

## 2. General modelling decisions

* Voxel keys are triples of `Z`. Go `int` is unbounded `Z`; wrap-around is modelled where the code uses a
  narrow type (`byte`, `uint16`, `uint32`, and the `int64` limit of `Atoi`).
* Go maps used as sets are std++ `gset`; maps are `gmap`. `range` over a map is a fold over *any* list that
  enumerates the map (a `Permutation` premise), so theorems hold for every iteration order.
* Files, readers and writers are byte lists; faulty writers are scripted outcomes per call; a crash keeps a
  prefix of the writes (C43).
* Goroutines and channels are step relations over explicit states; theorems quantify over all schedules, and
  say separately that no schedule blocks and that every schedule ends.
* Errors are `inl`/`None` values, panics and `log.Fatal` are explicit outcomes.
* **Floats.** Geometric theorems are over exact rationals `Q` and say so; the places where rounding changes the
  outcome have their own theorems in IEEE binary64 (C44, C55, C56, C57, C60, C61, C62, C63; Flocq's `BinarySingleNaN`, round
  to nearest even, NaN payloads identified, no fused multiply-add).
* Specifications are in separate small files or sections (`BinvoxSpec.v`, `VshellSpec.v`, `VshellCodecSpec.v`,
  `VoxelizeSpec.v`, `MeshSpec.v`, the "Specification" section at the top of `*Props.v`); the theorems named
  after properties are in the `*Props.v`-like files and are followed by `Example`s in which a concrete case
  meets their premises.
* Where the code does not do what its documentation says, the property states what it does and a theorem
  with suffix `_refuted` (or a named witness) shows the documented claim false of the model.

## 3. What is modelled

| file in /repo | modelled | not modelled |
|---|---|---|
| `binvox/binvox.go` | `New`, `Get`, `Add`, `AddColor`, `Dim`, `VoxelsPerMM`, `MBB` | `String` |
| `binvox/read.go` | all (header parser, run-length decoder, window) | logging |
| `binvox/write.go` | all (header, encoder goroutine, channel, errors, close) | logging |
| `binvox/voxelize.go` | all: slicing, Bresenham, octants, shell, flood fill, goroutines; sequential and concurrent reading proved equal; exact `Q` and binary64 (C63) | fused multiply-add |
| `binvox/marching-cubes.go` | all, tables generated from source; over `Q` and over binary64 (C60) | normals |
| `binvox/manifold.go`, `face-templates.go` | all, tables generated from source; over `Q` and over binary64 (C61); `TriangleLess` | dumping of failing cases |
| `binvox/mesh.go` | all; `gl.NewVoxelMesh` is a parameter with a contract | logging |
| `binvox/gen-testdata.go` | – | test data generator, excluded from the build and written for an older `BinVOX` struct (it does not compile) |
| `vshell/vshell.go` | types, bits, `New`, `Dim`, `VoxelsPerMM`, `MBB` | `String` methods |
| `vshell/merge.go` | all (`Merge`, `Add`, `update`, `findNeighbors`, `diffKeys`), slice aliasing included | – |
| `vshell/read.go`, `write.go` | all | – |
| `stl/stl.go` | all (worker pool) | loading of a file is one atomic step |
| `cmd/stldice` | `main`, `diceMesh`, loops, files, re-runs, `-mbb`, what `-smooth` does to the voxels, the printed script and running it (words split at blanks only) | other flag parsing, the rest of bash; `-smooth` by the contract of fauxgl |
| `cmd/stldice-mr` | mapper, reducer, `generateMR` | gleam, protobuf |
| `cmd/stl2svx`, `stl2svx/agent`, `stl2svx/stl` | jobs, voxelize, imager, manifest, blanks, the race for the zip file | cloud storage, PNG/ZIP bytes |
| `stl2svx/master` | pool, slices, archive, registrations | gRPC |
| `cmd/svx2stl` | `main` over a directory, reading of SVX | ZIP, PNG, XML decoding and `SaveSTL` are parameters or abstract |
| `cmd/voxcut` | all but logging and `-smooth`, also over a directory and with its flags | offsets that are only logged |
| `cmd/voxcut-dice` | `main`, over a directory, and the script of `-n` | how a child process is started |
| `cmd/binvox-dice` | boundaries, commands, `-mbb`, the printed script and running it | other flag parsing; `binvox` itself; Printf verbs other than `%[1]v` and `%%` |
| `cmd/merge-binvox` | `main` over a directory | flag parsing, prefixes with a slash, I/O errors; `filepath.Glob` by its documentation |
| `cmd/merge-stl` | `main` over a directory, all schedules | flag parsing, prefixes with a slash; `filepath.Glob` by its documentation; `LoadSTL`/`SaveSTL` are parameters |
| `cmd/marching-cubes`, `cmd/manifold-mesh` | `main` over a directory | flag parsing; `SaveSTL` is a parameter |
| `server/stldice-slave`, `server/stldice-master` | handlers, STL parsing | gRPC |
| `ms`, `mr`, `stldice`, `stl2svx/proto` (`*.pb.go`) | – | generated code |
| `stl2svx-server` | `getAddress` | flags and RPC plumbing |
| `stl2svx-client` | `main`, `loadSTL` over a directory | flag parsing, RPC |

## 4. Findings

Behaviour of the code that differs from what its documentation or names say, each with a theorem:

* `binvox.Read` windows are inclusive at both ends (one voxel more per axis than `nx, ny, nz`): C09.
* `binvox.Read` accepts truncated files without an error: C08. A zero dimension admits a voxel: C06.
* `Write` of a window places it wrongly in world space unless the window starts at the origin and keeps the
  largest dimension: C03.
* `vshell.Write` counts runs in 16 bits, so a run of a multiple of 65536 positions is lost: C23; an early write
  error leaks the encoder goroutine exactly if more runs remain than the channel holds: C25.
* `vshell.Add` keeps pointers into a slice that `append` may move, so updates of neighbour masks are lost:
  C18; mixed-sign offsets displace voxels: C20; the resolution test compares whole numbers: C21/C57.
* `MarchingCubes` and `ManifoldMesh`: closed surfaces with exact exceptions: C33, C36 (the 'leaky' patterns).
* A triangle whose V2 lies on a slicing plane between V1 and V3 loses its cut: C30. Meshes left of the grid give
  negative voxels: C28.
* `stldice` loses up to `n-1` top layers when the model does not divide by the number of tiles: C42; after an
  interruption a torn file is kept as finished: C43.
* `merge-binvox` overwrites its output without `-f`, and without any input truncates it and crashes: C64. The
  tiles of a diced model are put together wrongly, without an error, if a later tile lies before the first on
  some axis: C65.
* `-mbb` refuses a box written without brackets or blanks if the fourth number has a hyphen in it: C66.
* `merge-stl` without any part crashes on a nil mesh, and with `-num 0` never ends: C67.
* `voxcut` ignores translations: C39; its `.vox` file has inconsistent chunk sizes: C40.
* `voxcut-dice` stops at the first empty tile (C41); the script that `-n` prints does not (C83).
* `voxcut-dice -ostl` and `-ovox`: adjacent tiles have a layer of voxels in common, because only `-obinvox` cuts off the voxels at the
  upper end of the window that `Read` keeps; merged STL tiles count these voxels two, four or eight times: C83.
* `ToMesh` then `Voxelize` in the same grid does not give the model back: it is one voxel thicker along x and along y (not along z) after
  every round trip, because the walls at the upper ends lie on the boundary of the next voxel: C84.
* `stldice -smooth` changes the normals that decide where `Voxelize` fills: a convex solid can become hollow: C85.
* `merge-binvox` and `merge-stl` read their prefix as a pattern: with `[1]` in it they miss their own files and take others, and `merge-stl` then overwrites without `-f`: C86.
* `stl2svx` writes the manifest and the images to one zip writer without synchronisation, and uses a nil
  writer on some schedules: C46. `stldice-mr` overlays regions and loses the upper slices: C54.
* The master's archive is silently incomplete if an agent fails, two jobs share one zip writer, a busy agent
  that registers again gets two slices, and a job can wait forever: C49, C50.
* The slave empties the stored model and crashes on the second `AddSTLMesh`, and `GetSTLMesh` always
  answers with no data: C51. A text STL shorter than 84 bytes is refused and a vertex count that is no
  multiple of three panics: C52.
* `stl2svx-client` with a prefix other than `out` gets an archive that `svx2stl` refuses: C73; an archive without
  entries makes `svx2stl` panic: C72. An agent without a plain IPv4 address registers an IPv6 one without brackets: C74.
* `Voxelize`: a solid inside another one makes voxels well inside the outer one vanish; a solid smaller than a
  voxel fills the row up to the next solid: C80.
* `binvox-dice`: its script relies on the numbers that `binvox` gives to its files, so an old `x.binvox` shifts the
  tiles of `x.stl`, an argument `x_1.stl` is taken for a tile of `x.stl`, an argument `out.stl` would be overwritten (excluded by a
  hypothesis), and `%%` in a name is not the same for the two programs: C82.
* binary64: an extra layer of voxels for some sizes: C55; a tile one voxel off after merging: C56; a tile
  refused although its resolution is that of the shell: C57; a last tile boundary that misses the box: C44; a
  marching-cubes mesh with gaps, for one voxel of 0.3 mm at the origin: C60; a voxel at x = -1 for a mesh inside
  the grid: C63.

## 5. Properties

Status, what is modelled (file of the theorems) and how it is proved. Statements: `properties.jsonl`.

| property | title | status | theorems in | model and proof |
|---|---|---|---|---|
| C01 | binvox Write/Read round trip | proved | `BinvoxConc.v`, `BinvoxProps.v` | `write`, `encode`, `read` on byte lists; encoder output = run lengths of the voxel bits, decoder inverts run lengths by induction, header text by parser lemmas. Premise: FloatText. For the concurrent writer: composition with C10 (C01_any_schedule). |
| C02 | binvox sub-region Write writes exactly the window | proved | `BinvoxProps.v` | as C01 for an arbitrary window. |
| C03 | world placement of a sub-region Write | proved | `BinvoxProps.v` | window placement over Q; field arithmetic; refutation by witness. |
| C04 | binvox data section is a well-formed, canonical run-length encoding | proved | `BinvoxProps.v` | encoder invariant: maximal runs split at 255. |
| C05 | Write reports the exact number of white voxels written | proved | `BinvoxConc.v`, `BinvoxProps.v` | count of set bits of the window = number returned. For the concurrent writer: C05_any_schedule. |
| C06 | binvox Read never yields a voxel outside the declared dimensions | proved | `BinvoxProps.v` | cursor invariant of the decoder on arbitrary bytes. |
| C07 | binvox Read accepts exactly the well-formed files | proved | `BinvoxProps.v` | decoder accepts iff the records fit; list induction. |
| C08 | binvox Read of a truncated file | proved | `BinvoxProps.v` | prefix lemma for the decoder; witness for silent acceptance. |
| C09 | binvox windowed Read | proved | `BinvoxProps.v`, `ReadWindow.v` | exact (inclusive) window proved; half-open window refuted by witness. |
| C10 | the concurrent binvox writer is schedule independent and always finishes | proved | `BinvoxProps.v` | encoder and consumer as a two-process machine with a bounded channel: invariant, confluence, decreasing measure. |
| C11 | Write reports failed writes | proved | `BinvoxProps.v` | scripted writer; case analysis over all outcomes of create, writes and close. |
| C12 | an empty model round trips | proved | `BinvoxProps.v` | computation of the header path for empty models. |
| C13 | voxel store: New/Get/Add/AddColor | proved | `BinvoxNew.v`, `BinvoxProps.v` | gset/gmap lemmas. Exact form of the model after a list of Adds by induction; file by C01. |
| C14 | model geometry: Dim, VoxelsPerMM, MBB | proved | `BinvoxProps.v` | field arithmetic over Q. |
| C15 | vshell neighbour bits | proved | `VshellProps.v` | 27 offsets by kernel computation, lifted to all integer keys; symmetry by bit lemmas. |
| C16 | building a shell from a binvox | proved | `VshellProps.v` | fold invariants over arbitrary permutations and arbitrary slice growth. |
| C17 | adding disjoint parts to a shell keeps it between the true shell and the model | proved | `VshellProps.v` | invariant 'between true shell and model' through any sequence of parts. |
| C18 | incremental shell equals the shell of the union | proved | `VshellProps.v` | exactness with spare capacity; voxel-set exactness always; witness history. |
| C19 | duplicate voxels when adding a part to a shell | proved | `VshellProps.v` | membership test before insertion; fold invariant. |
| C20 | aligning a part keeps world positions | proved | `VshellProps.v` | exact offsets over Q; refutation for mixed signs. |
| C21 | Add rejects bad parts and then leaves the shell unchanged | proved | `VshellProps.v` | case analysis of `update`. |
| C22 | adding a part keeps the shell's resolution | proved | `VshellProps.v` | rescaling over Q. |
| C23 | vshell Write/Read round trip | proved | `VshellCodecProps.v` | codec with uint16/byte counts: run-length argument of C01 plus wrap-around; witnesses of the losses. |
| C24 | vshell Read is total, in range and rejects malformed data | proved | `VshellCodecProps.v` | total decoder on arbitrary bytes; cursor invariant; truncation lemma. |
| C25 | the concurrent vshell writer | proved | `VshellCodecProps.v` | two-process machine with early exit; invariant and exact leak condition. |
| C26 | Bresenham line exactness | proved | `VoxelizeProps.v` | loop invariant on the error term of Bresenham's loop. |
| C27 | rasterised segments in all octants | proved | `VoxelizeProps.v` | octant reduction to C26. |
| C28 | voxelizer output stays inside the grid | proved | `VoxelizeLeft.v`, `VoxelizeProps.v` | fold invariants of plot and fill; witness for negative x. |
| C29 | Voxelize is schedule independent | proved | `VoxelizeProps.v` | fork-join machine (ForkJoin.v): every interleaving ends in the state of the sequential reading; no deadlock, no race on the shared map; measure for termination. |
| C30 | triangle/plane slicing is exact | proved | `VoxelizeAccuracy.v`, `VoxelizeProps.v` | `intersectSegment`, `intersectTriZPlane`, `intersectZPlane` over Q; convexity of triangles; linear arithmetic. |
| C31 | flood fill fills exactly the inside | proved | `VoxelizeProps.v` | exact description of the fill state after each column, by induction over the row. |
| C32 | marching-cubes tables are mutually consistent | proved | `MarchProps.v` | 256 patterns by kernel computation over generated tables. |
| C33 | MarchingCubes of any model is a closed mesh | proved | `MarchProps.v` | directed edges of cell triangles cancel face by face: finite sweep over patterns of two neighbouring cells lifted to all finite voxel sets, then to all map orders. |
| C34 | marching-cubes vertices separate filled from empty voxels | proved | `MarchProps.v` | vertex of a marked edge lies between a filled and an empty corner; orientation by determinants in the finite sweep. |
| C35 | manifold grid cells | proved | `ManifoldProps.v` | fold invariant of `keyFunc` over both voxel maps in any order. |
| C36 | ManifoldMesh is closed and consistently oriented, and exactly when | proved | `ManifoldExact.v`, `ManifoldProps.v` | as C33 for the manifold templates, with a second set of face contributions for the patterns that cross a face along the other diagonal; the converse by an additive antisymmetric functional that counts how often edges pass the middle of a piece of a cell face, and induction upwards through the cells. |
| C37 | the triangle order is a strict weak order | proved | `ManifoldProps.v` | lexicographic order lemmas over Q. |
| C38 | voxcut subtracts | proved | `VoxcutProps.v` | gset lemmas about `voxcut`, composed with Read/Write theorems. |
| C39 | voxcut ignores translations | proved | `VoxcutProps.v` | rewording to what the code does; world-space claim refuted. |
| C40 | the chunks of the .vox file | proved | `VoxcutProps.v` | length computation of the chunks. |
| C41 | voxcut-dice tiles partition the model | proved | `VoxcutDiceProps.v` | induction over the three loops; windows partition the grid. |
| C42 | stldice tiles agree with the whole model | proved | `StldiceProps.v` | tile loop, per-tile placement and content (via translation of Voxelize, VoxelizeShift.v), union, exact loss; C42_empty_tile_file for the empty tile with a file. |
| C43 | stldice re-run after an interruption | proved | `StldiceDefault.v`, `StldiceProps.v` | directory as a map from names to bytes; prefix of writes; idempotence. |
| C44 | binvox-dice tiles share their faces | proved | `BinvoxDiceFloat.v`, `BinvoxDiceProps.v` | binary64 Lerp via Flocq: shared boundaries are the same float; ends exact under stated conditions; witness. |
| C45 | SVX slice images | proved | `SvxProps.v` | imager as a fold over pixel updates; permutation invariance (base/cut lattice). |
| C46 | stl2svx's race for the zip file | proved | `SvxRace.v` | interleaving machine for the zip writer; explicit bad schedule; exact description of good schedules. |
| C47 | SVX reading and round trip | proved | `SvxReadProps.v` | reader loop over entries; round trip of pixels. |
| C48 | stl.Merge joins all triangles, in some order, with a bounded pool | proved | `StlMerge.v` | worker pool machine: invariant over all schedules; bound on running workers; termination. |
| C49 | the master gives an agent at most one slice at a time, if busy agents do not re-register | proved | `MasterProps.v` | agent pool machine; invariant; counterexample schedule. |
| C50 | what NewJob's archive contains, and when the master waits forever | proved | `MasterJobs.v`, `MasterSvx.v` | job machine on top of C49; archive contents for all histories; stuck states. |
| C51 | what the slave server keeps and returns | proved | `SlaveMaster.v`, `SlaveProps.v` | slave handlers over a directory state; all request histories. |
| C52 | STL parsing: binary or text, and exactly which triangles | proved | `StlParseProps.v` | binary/text decision and both parsers on byte lists; exact triangles. |
| C53 | stl2svx regions | proved | `MasterSvx.v`, `SvxProps.v` | regions of stl2svx/agent; arithmetic of tiles. |
| C54 | map-reduce slicing in stldice-mr | proved | `MrProps.v` | mapper/reducer over all delivery orders; exact image, in terms of the meshes as loaded (remade triangles give the same voxels); loss of upper slices. |
| C55 | float64: how many voxels -dim gives | proved | `FloatDice.v` | binary64: relative error of the product, ceiling of the rounded value; witness by computation. |
| C56 | float64: where a tile lands in the merged shell | proved | `FloatMerge.v` | binary64: six roundings followed through; truncation of an interval that contains one integer. |
| C57 | float64: drift of a shell's resolution, and refusal of tiles | proved | `FloatMerge.v` | binary64: induction over the growth history with relative error per step; witness by computation. |
| C58 | voxels follow the surface to within a voxel | proved | `VoxelizeAccuracy.v` | digital line within half a step of the segment (C27), floor bounds, exact slice (C30), fill (C31). |
| C59 | a box voxelizes to exactly the voxels it meets | proved | `VoxelizeBox.v` | cuts of the 12 triangles, axis-parallel digital lines, row balance, composed through C29–C31. |
| C60 | MarchingCubes in float64: where the mesh is closed and where it has gaps | proved | `FloatMesh.v`, `FloatMeshGap.v` | MarchingCubes over Flocq binary64; vertices factor through grid points (half-integers exact), then the pairing argument of C33; Sterbenz for the sufficient condition; the gaps by computation of the mesh and an edge without partner. |
| C61 | ManifoldMesh in float64 stays watertight | proved | `FloatManifold.v` | ManifoldMesh over Flocq binary64; the cell argument of C36 with cuts along the axes only; the coordinate computation is exact up to two roundings, hence monotone in the index, so a grid midpoint stays on its edge; float32 rounding is monotone too. |
| C62 | Float64 meshes are the exact ones up to rounding | proved | `FloatMeshError.v` | FloatMeshError.v: forward error analysis (/fl x - x/ <= 2^-53(/x/+w)) of each coordinate, carried through the tables cell by cell; the rational model is the one of C33-C36. |
| C63 | voxelizing in float64 is as good as exact, up to 2^-46 of the scene | proved | `FloatVoxelConc.v`, `FloatVoxelCover.v`, `FloatVoxelProps.v` | FloatVoxelModel.v is VoxelizeModel.v over binary64. Fill: each slice is simulated by an exact mesh with the same outlines, so C31's theorem applies. Accuracy: forward error analysis of slicing and of the grid cell (u = 2^-53), then C58's lemmas about digital lines; coverage: away from vertices the float decisions equal the exact ones, so C30 gives the cut. C63_facing: the dot product with (-1,0,0) is exact. |
| C64 | merge-binvox: what a run does to the directory | proved | `CmdMergeProps.v`, `CmdMergeTiles.v` | directory as a map from names to bytes; Glob as sort of the matching names; invariant over the files for the placement, using C16-C20 for Add and C23/C24 for the written bytes. |
| C65 | stldice then merge-binvox gives back the shell of the model | proved | `CmdDice.v`, `CmdDiceEx.v` | C42 gives what each tile file holds, the names are ordered like the tiles up to 100 per axis, so C64_merges applies with the tile offsets. |
| C66 | the -mbb flag: which box is read | proved | `MbbProps.v` | a matcher that tries the greedy choices in order of preference, proved sound for a declarative match relation; the first success is computed symbolically; longer candidates of the third group are excluded by counting commas after a hyphen. |
| C67 | merge-stl: what a run does to the directory | proved | `CmdStlProps.v` | the command as a relation over the runs of the worker-pool model of C48; the inputs are characterised from the sorted listing. |
| C68 | from .binvox files to one closed STL | proved | `CmdStlClosed.v` | closedness as a permutation of the edge list and its reverse, hence stable under any map of vertices and under concatenation; C33 for each part, C67 for the merge. |
| C69 | the meshes have the volume of the voxels, with the sign of an outward surface | proved | `MeshVolume.v`, `MeshWatertight.v` | the volume is a sum over the cells of an integer of the pattern once the open boundary of each cell's patch contributes a cancelling term; the table of 256 patterns is evaluated by the kernel, the sum over cells counts each voxel eight times. |
| C70 | the inside of the meshes is the set of voxels | proved | `MeshInside.v`, `MeshNear.v`, `MeshSolid.v`, `MeshWatertight.v` | crossing numbers of the ray with each cell's patch, read off a table of signs for each of the regions (16 in the octahedron, 72 in the voxel) into which the projected template edges cut the plane; the column sum telescopes to the occupancy of the voxel. In z: every vertex of the tables is off the corners of its cell, so every triangle is at distance at least 1/2 (in the 1-norm) from every centre; the winding number does not change along a vertical segment that does not meet the mesh. |
| C71 | ToMesh gives the surface of the voxels, in place | proved | `ToMesh.v`, `ToMeshWind.v` | affine image of the contract for unit cubes; the contract is met by an explicit mesher, by cases over the six sides. C71_winding: winding numbers under the affine map; C71_unit_faces shows that the explicit mesher meets this contract too. |
| C72 | svx2stl over a directory | proved | `CmdSvx.v` | induction over the files; composition of C33, C47 and C70. |
| C73 | stl2svx-client | proved | `CmdSvx.v` | Split inverts Join on words without the separator; file names decoded from the right; composition with C50 and C72. |
| C74 | the address an agent registers | proved | `CmdSvx.v` | induction over interfaces and addresses. |
| C75 | stldice, marching-cubes on each tile, merge-stl: the STL encloses the model | proved | `CmdDiceMesh.v` | what each tile file reads as (C42) and where; winding numbers add over joined meshes; each voxel lies in exactly one tile; C70 at every point of the octahedron (encloses). |
| C76 | manifold-mesh: what a run does | proved | `CmdManifold.v` | composition of C36_exact and C70_manifold_watertight with the command. |
| C77 | bounding box of a voxel shell, also after adding parts | proved | `VshellMbb.v` | `shell_mbb`; composition of C20 (world positions kept), C22 (dimensions grow) and C17 (sequence) by induction over the parts. |
| C78 | a box goes through Voxelize and comes back as a surface around the same voxels | proved | `MeshBox.v`, `MeshBoxIn.v` | C59 gives a product of three intervals of voxels; every 2x2x2 block of a product set is well composed (64 cases), so C36, C69 and C70 apply; the number of voxels by floors. C78_encloses: C70_inside_cube at the voxel the point is in. |
| C79 | the script that stldice prints: base minus cuts | proved | `StldiceScript.v` | words of the printed lines; what stldice leaves in each file (C42), what voxcut makes of it (C38) and ToMesh (C71_winding); winding numbers add over the tiles; merge-stl by C67. |
| C80 | Voxelizing a convex solid, or several that stand apart | proved | `Convex.v`, `ConvexEx.v`, `ConvexMesh.v` | From a point of the solid, going along +x or -x leads to a point of a triangle that faces that way (the nearest of the planes that bound the way); the digital line of that triangle meets the row (Bresenham lines meet every row between their ends), so each row of a layer has an out-facing triangle on each side of a deep voxel and none between by the supporting planes; then the fill loop of that row. C80_near: shell pixels are within half a voxel of the cut, and a filled run lies between two of them, hence by convexity in the solid. C80_surface adds C71_winding. |
| C81 | stldice and its script on convex solids: base minus cuts, as a solid | proved | `ConvexScript.v` | C79_script says which voxels the file surrounds, C80_inside and C80_near which voxels those are; the grid of the whole model has positive sides and resolution if the tiles have. |
| C82 | binvox-dice: what running its script leaves | proved | `BinvoxDiceScript.v` | BinvoxDiceScriptModel prints the script and runs it, with binvox as a parameter that writes to the first free one of stem.binvox, stem_1.binvox, ...; an invariant over the tiles says which of these files exist. |
| C83 | voxcut-dice over a directory: the files of every tile, and putting the STL tiles together | proved | `VoxcutDir.v`, `VoxcutDirEx.v`, `VoxcutDirMerge.v` | VoxcutDirModel parses the words of each command with a model of package flag and runs voxcut's main on a directory; an invariant over the tiles (distinct names, C41) says which files exist, C38 and C71 what is in them, and merge-stl is C67 with winding numbers added over the tiles that contain a voxel. |
| C84 | ToMesh and then Voxelize: every round trip makes a voxel model thicker | proved | `VoxelRound.v`, `VoxelRoundMesh.v` | The outline of a wall across x is exactly the rows it touches (a digital line between two points of the same column), of a wall across y the columns; so the shell is the set of voxels among whose four neighbours at the corner the model changes. In a row, the balance of Voxelize is positive where a run of the model begins and negative where it ends, by induction along the row; ToMesh's mesh is shown to be such a surface, triangle by triangle. |
| C85 | stldice -smooth: when smoothing the normals leaves the voxels alone | proved | `Smooth.v`, `SmoothAny.v`, `SmoothEx.v`, `SmoothRun.v` | The exact description of the filled voxels (C31) uses the normals only in the balance of a column, so equal signs give equal voxels. A sum of unit normals within the angle of one that is farther from the plane than the angle keeps its side (Cauchy-Schwarz) and is not too short for the threshold of 10^-9. The finding is computed in the kernel. |
| C86 | merge-binvox and merge-stl with any prefix: which files are taken | proved | `GlobOnly.v`, `GlobProps.v`, `GlobStl.v` | A reader for the documented pattern language of filepath.Match, and a matcher by recursion on the terms. Lemmas by induction on the text of the prefix give the terms it is read as and the names they match. The two commands are restated with the general Glob and shown equal to those of C64 and C67 for plain prefixes. That no other prefix is safe follows by counting: a pattern shorter than its text has a match shorter than its text, or none. |

Theorems that use the axioms of the real numbers (all others are closed under the global context):
`C44_first_boundary`, `C44_last_boundary`, `C44_last_boundary_exact`, `C44_last_boundary_misses`, `C44_monotone`, `C44_slabs_cover`, `C44_slabs_disjoint`, `C55_axis`, `C55_axis_exact`, `C55_extra_layer`, `C55_longest_axis`, `C55_power_of_two`, `C56_exact`, `C56_misaligned`, `C56_offset`, `C57_accepted`, `C57_drift`, `C57_refused`, `C57_stays_near`, `C60_closed_away`, `C60_closed_exact`, `C60_closed_if_symmetric`, `C60_example_away`, `C60_example_exact`, `C60_gap_float64`, `C60_gap_stl`, `C61_example`, `C61_watertight`, `C61_watertight_stl`, `C62_marching`, `C62_manifold`, `C62_stl`, `C62_readable`, `C63_range`, `C63_voxels_near_surface`, `C63_left_edge`, `C63_left_edge_refuted`, `C63_fill`, `C63_layer`, `C63_slice_height`, `C63_surface_covered`, `C63_any_schedule`, `C63_no_race`, `C63_no_deadlock`, `C63_terminates`, `C63_facing`.

## 6. Seeded bugs

465 edits of model definitions are logged in `seeded/LOG.jsonl`; 446 made a theorem of the claim they break fail. The rest are
recorded there with the theorem that was added or tightened, or with the reason why the edit does not change behaviour.
