# Formal model of gmlewis/stldice in Rocq (Coq 8.16.1)

The model and proofs are in `rocq/theories`. The properties are in `properties.jsonl`, the mapping from
properties to theorems in `MANIFEST.json`, mutation experiments in `seeded/LOG.jsonl` (harness
`seeded/run.py`, mutants `seeded/mutants.json`). `tools/` has the scripts that write
`properties.jsonl`, `MANIFEST.json`, this file, and the Coq tables generated from the Go tables.

## 1. Trusted base

* **Coq's kernel** (8.16.1), as run by `coqc` and `coqchk`. No axiom, `Admitted`, `Parameter`, plugin, module
  type or functor is declared here. `vm_compute` (part of the kernel) is used for closed computations.
* **`Print Assumptions`**: every theorem of `MANIFEST.json` is *closed under the global context*, except the
  binary64 theorems listed in section 5, which rest on the standard library's axioms for the real numbers
  (`ClassicalDedekindReals.sig_not_dec`, `ClassicalDedekindReals.sig_forall_dec`,
  `FunctionalExtensionality.functional_extensionality_dep`, `Classical_Prop.classic`) because Flocq states
  rounding over `R`.
* **Libraries**: Coq's standard library, std++ (`gset`, `gmap`, list lemmas), Flocq (binary64).
* **The reading of the Go code.** Every definition of a model file cites the lines it models and says what it
  leaves out. Nothing checks this mechanically: `/repo` could not be built or run here. The exceptions are
  the lookup tables of marching cubes and of the manifold mesher (256 entries each and the face templates),
  which `tools/` translated from the Go source, so no typing error can enter there.
* **Assumptions about code outside `/repo`**, all visible as definitions or hypotheses:
  - `fauxgl`: `BoundingBox`, `Box.Size`, `Lerp` (`a + (b-a)*t`), `FixNormals`, `SaveSTL`,
    `LoadSTL`/`ParseFloats`, `NewTriangleForPoints` are modelled from their contract.
  - `fmt` with `%g` and `strconv.ParseFloat`: a record `FloatText` of two functions with the round-trip law;
    it appears as a premise of the theorems that need it, and `FloatTextQ.v` gives an instance, so the premise can be met.
    `%v`, `%d`, `%04d` of integers and `Atoi` are defined and proved to round trip.
  - `regexp`: the four header expressions are written as parsers.
  - `append`: the capacity of a grown slice is an arbitrary function, so aliasing of `vs.Voxels` in
    `vshell.Add` is covered for every growth policy.
  - channels, `sync.Mutex`, `sync.WaitGroup`: small-step semantics in `Chan.v`, `ForkJoin.v`, `StlMerge.v`,
    `MasterModel.v`, `SvxRace.v`; sequentially consistent. The races the code has are shown as explicit
    interleavings (C46) or excluded by a theorem (C29).
  - ZIP, PNG, XML: writing and then reading an entry, an image or an element returns it; only names, order,
    pixels and attributes are modelled.
  - gleam (`stldice-mr`) delivers each emitted value once to the reducer of its key, in any order; gRPC
    delivers a request and its reply or an error.

## 2. General modelling decisions

* Voxel keys are triples of `Z`. Go `int` is unbounded `Z`; wrap-around is modelled where the code uses a
  narrow type (`byte`, `uint16`, `uint32`, and the `int64` limit of `Atoi`).
* Go maps used as sets are std++ `gset`; maps are `gmap`. `range` over a map is a fold over *any* list that
  enumerates the map (a `Permutation` premise), so theorems hold for every iteration order.
* Files, readers and writers are byte lists; faulty writers are scripted outcomes per call; a crash keeps a
  prefix of the writes (C43).
* Goroutines and channels are step relations over explicit states; theorems quantify over all schedules, and
  say separately that no schedule blocks and that every schedule ends.
* Errors are `inl`/`None` values, panics and `log.Fatal` are explicit outcomes.
* **Floats.** Geometric theorems are over exact rationals `Q` and say so; the places where rounding changes the
  outcome have their own theorems in IEEE binary64 (C44, C55, C56, C57, C60, C61, C62, C63; Flocq's `BinarySingleNaN`, round
  to nearest even, NaN payloads identified, no fused multiply-add).
* Specifications are in separate small files or sections (`BinvoxSpec.v`, `VshellSpec.v`, `VshellCodecSpec.v`,
  `VoxelizeSpec.v`, `MeshSpec.v`, the "Specification" section at the top of `*Props.v`); the theorems named
  after properties are in the `*Props.v`-like files and are followed by `Example`s in which a concrete case
  meets their premises.
* Where the code does not do what its documentation says, the property states what it does and a theorem
  with suffix `_refuted` (or a named witness) shows the documented claim false of the model.

## 3. What is modelled

| file in /repo | modelled | not modelled |
|---|---|---|
| `binvox/binvox.go` | `New`, `Get`, `Add`, `AddColor`, `Dim`, `VoxelsPerMM`, `MBB` | `String` |
| `binvox/read.go` | all (header parser, run-length decoder, window) | logging |
| `binvox/write.go` | all (header, encoder goroutine, channel, errors, close) | logging |
| `binvox/voxelize.go` | all: slicing, Bresenham, octants, shell, flood fill, goroutines; sequential and concurrent reading proved equal; exact `Q` and binary64 (C63) | fused multiply-add |
| `binvox/marching-cubes.go` | all, tables generated from source; over `Q` and over binary64 (C60) | normals |
| `binvox/manifold.go`, `face-templates.go` | all, tables generated from source; over `Q` and over binary64 (C61); `TriangleLess` | dumping of failing cases |
| `binvox/mesh.go` | all; `gl.NewVoxelMesh` is a parameter with a contract | logging |
| `binvox/gen-testdata.go` | – | test data generator, excluded from the build and written for an older `BinVOX` struct (it does not compile) |
| `vshell/vshell.go` | types, bits, `New`, `Dim`, `VoxelsPerMM`, `MBB` | `String` methods |
| `vshell/merge.go` | all (`Merge`, `Add`, `update`, `findNeighbors`, `diffKeys`), slice aliasing included | – |
| `vshell/read.go`, `write.go` | all | – |
| `stl/stl.go` | all (worker pool) | loading of a file is one atomic step |
| `cmd/stldice` | `main`, `diceMesh`, loops, files, re-runs, `-mbb`, what `-smooth` does to the voxels, the printed script and running it (words split at blanks only) | other flag parsing, the rest of bash; `-smooth` by the contract of fauxgl |
| `cmd/stldice-mr` | mapper, reducer, `generateMR` | gleam, protobuf |
| `cmd/stl2svx`, `stl2svx/agent`, `stl2svx/stl` | jobs, voxelize, imager, manifest, blanks, the race for the zip file | cloud storage, PNG/ZIP bytes |
| `stl2svx/master` | pool, slices, archive, registrations | gRPC |
| `cmd/svx2stl` | `main` over a directory, reading of SVX | ZIP, PNG, XML decoding and `SaveSTL` are parameters or abstract |
| `cmd/voxcut` | all but logging and `-smooth`, also over a directory and with its flags | offsets that are only logged |
| `cmd/voxcut-dice` | `main`, over a directory, and the script of `-n` | how a child process is started |
| `cmd/binvox-dice` | boundaries, commands, `-mbb`, the printed script and running it | other flag parsing; `binvox` itself; Printf verbs other than `%[1]v` and `%%` |
| `cmd/merge-binvox` | `main` over a directory | flag parsing, prefixes with a slash, I/O errors; `filepath.Glob` by its documentation |
| `cmd/merge-stl` | `main` over a directory, all schedules | flag parsing, prefixes with a slash; `filepath.Glob` by its documentation; `LoadSTL`/`SaveSTL` are parameters |
| `cmd/marching-cubes`, `cmd/manifold-mesh` | `main` over a directory | flag parsing; `SaveSTL` is a parameter |
| `server/stldice-slave`, `server/stldice-master` | handlers, STL parsing | gRPC |
| `ms`, `mr`, `stldice`, `stl2svx/proto` (`*.pb.go`) | – | generated code |
| `stl2svx-server` | `getAddress` | flags and RPC plumbing |
| `stl2svx-client` | `main`, `loadSTL` over a directory | flag parsing, RPC |

## 4. Findings

Behaviour of the code that differs from what its documentation or names say, each with a theorem:

* `binvox.Read` windows are inclusive at both ends (one voxel more per axis than `nx, ny, nz`): C09.
* `binvox.Read` accepts truncated files without an error: C08. A zero dimension admits a voxel: C06.
* `Write` of a window places it wrongly in world space unless the window starts at the origin and keeps the
  largest dimension: C03.
* `vshell.Write` counts runs in 16 bits, so a run of a multiple of 65536 positions is lost: C23; an early write
  error leaks the encoder goroutine exactly if more runs remain than the channel holds: C25.
* `vshell.Add` keeps pointers into a slice that `append` may move, so updates of neighbour masks are lost:
  C18; mixed-sign offsets displace voxels: C20; the resolution test compares whole numbers: C21/C57.
* `MarchingCubes` and `ManifoldMesh`: closed surfaces with exact exceptions: C33, C36 (the 'leaky' patterns).
* A triangle whose V2 lies on a slicing plane between V1 and V3 loses its cut: C30. Meshes left of the grid give
  negative voxels: C28.
* `stldice` loses up to `n-1` top layers when the model does not divide by the number of tiles: C42; after an
  interruption a torn file is kept as finished: C43.
* `merge-binvox` overwrites its output without `-f`, and without any input truncates it and crashes: C64. The
  tiles of a diced model are put together wrongly, without an error, if a later tile lies before the first on
  some axis: C65.
* `-mbb` refuses a box written without brackets or blanks if the fourth number has a hyphen in it: C66.
* `merge-stl` without any part crashes on a nil mesh, and with `-num 0` never ends: C67.
* `voxcut` ignores translations: C39; its `.vox` file has inconsistent chunk sizes: C40.
* `voxcut-dice` stops at the first empty tile (C41); the script that `-n` prints does not (C83).
* `voxcut-dice -ostl` and `-ovox`: adjacent tiles have a layer of voxels in common, because only `-obinvox` cuts off the voxels at the
  upper end of the window that `Read` keeps; merged STL tiles count these voxels two, four or eight times: C83.
* `ToMesh` then `Voxelize` in the same grid does not give the model back: it is one voxel thicker along x and along y (not along z) after
  every round trip, because the walls at the upper ends lie on the boundary of the next voxel: C84.
* `stldice -smooth` changes the normals that decide where `Voxelize` fills: a convex solid can become hollow: C85.
* `merge-binvox` and `merge-stl` read their prefix as a pattern: with `[1]` in it they miss their own files and take others, and `merge-stl` then overwrites without `-f`: C86.
* `stl2svx` writes the manifest and the images to one zip writer without synchronisation, and uses a nil
  writer on some schedules: C46. `stldice-mr` overlays regions and loses the upper slices: C54.
* The master's archive is silently incomplete if an agent fails, two jobs share one zip writer, a busy agent
  that registers again gets two slices, and a job can wait forever: C49, C50.
* The slave empties the stored model and crashes on the second `AddSTLMesh`, and `GetSTLMesh` always
  answers with no data: C51. A text STL shorter than 84 bytes is refused and a vertex count that is no
  multiple of three panics: C52.
* `stl2svx-client` with a prefix other than `out` gets an archive that `svx2stl` refuses: C73; an archive without
  entries makes `svx2stl` panic: C72. An agent without a plain IPv4 address registers an IPv6 one without brackets: C74.
* `Voxelize`: a solid inside another one makes voxels well inside the outer one vanish; a solid smaller than a
  voxel fills the row up to the next solid: C80.
* `binvox-dice`: its script relies on the numbers that `binvox` gives to its files, so an old `x.binvox` shifts the
  tiles of `x.stl`, an argument `x_1.stl` is taken for a tile of `x.stl`, an argument `out.stl` would be overwritten (excluded by a
  hypothesis), and `%%` in a name is not the same for the two programs: C82.
* binary64: an extra layer of voxels for some sizes: C55; a tile one voxel off after merging: C56; a tile
  refused although its resolution is that of the shell: C57; a last tile boundary that misses the box: C44; a
  marching-cubes mesh with gaps, for one voxel of 0.3 mm at the origin: C60; a voxel at x = -1 for a mesh inside
  the grid: C63.

## 5. Properties

