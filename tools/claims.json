{
 "C01": {
  "status": "proved",
  "note": "All models with at least one voxel, all inside the dimensions; float text round trip is a hypothesis (FloatText)."
 },
 "C02": {
  "status": "proved",
  "note": "All windows with positive extent."
 },
 "C03": {
  "status": "proved",
  "note": "Exact rational arithmetic; includes the refutation of unconditional placement."
 },
 "C04": {
  "status": "proved",
  "note": ""
 },
 "C05": {
  "status": "proved",
  "note": ""
 },
 "C06": {
  "status": "proved",
  "note": "Includes the refutation for a zero dimension, as the statement says."
 },
 "C07": {
  "status": "proved",
  "note": "Header as produced by the format string; data section arbitrary."
 },
 "C08": {
  "status": "proved",
  "note": "Both halves: subset for every cut, and silent acceptance witness."
 },
 "C09": {
  "status": "proved",
  "note": "Exact (inclusive) window, for every byte sequence (C09_any_file) and for written files; documented half-open window refuted. Sums start+count are unbounded (they wrap in Go only for dimensions above 2^62)."
 },
 "C10": {
  "status": "proved",
  "note": "Two-goroutine machine, any capacity, any schedule."
 },
 "C11": {
  "status": "proved",
  "note": "Every combination of outcomes of the two write calls, create and close."
 },
 "C12": {
  "status": "proved",
  "note": ""
 },
 "C13": {
  "status": "proved",
  "note": ""
 },
 "C14": {
  "status": "proved",
  "note": "Exact rational arithmetic; float rounding not modelled."
 },
 "C15": {
  "status": "proved",
  "note": "All integer keys."
 },
 "C16": {
  "status": "proved",
  "note": "All voxel sets, all iteration orders, all growth functions; colour-only refutation included."
 },
 "C17": {
  "status": "proved",
  "note": "Sequences of parts at whole-voxel non-negative offsets; single Add for any compatible part."
 },
 "C18": {
  "status": "proved",
  "note": "Exactness with room, voxel-set exactness without, and a witness history losing an update."
 },
 "C19": {
  "status": "proved",
  "note": ""
 },
 "C20": {
  "status": "proved",
  "note": "Exact rational arithmetic."
 },
 "C21": {
  "status": "proved",
  "note": ""
 },
 "C22": {
  "status": "proved",
  "note": "Exact rational arithmetic."
 },
 "C23": {
  "status": "proved",
  "note": "Whole shells and regions; both losses shown by theorem."
 },
 "C24": {
  "status": "proved",
  "note": "All byte strings; truncation for every file, not only written ones."
 },
 "C25": {
  "status": "proved",
  "note": "Two-goroutine machine, any capacity, any schedule, any fault; exact leak condition."
 },
 "C26": {
  "status": "proved",
  "note": "All integer endpoints (unbounded ints)."
 },
 "C27": {
  "status": "proved",
  "note": "All integer endpoints (unbounded ints)."
 },
 "C28": {
  "status": "proved",
  "note": "Exact rational arithmetic; triangles at distinct addresses."
 },
 "C29": {
  "status": "proved",
  "note": "All interleavings of the spawned goroutines: fork-join machine with slice and row goroutines; result, absence of races and deadlocks, termination."
 },
 "C30": {
  "status": "proved",
  "note": "Exact rational arithmetic; exact outside three named cases, the lossy case is a theorem."
 },
 "C31": {
  "status": "proved",
  "note": "All meshes: exact voxel set of a slice; corollary for consistently oriented rows."
 },
 "C32": {
  "status": "proved",
  "note": "All 256 patterns by kernel computation, lifted to every cell of every model (C32_no_panic)."
 },
 "C33": {
  "status": "proved",
  "note": "Every finite voxel set, every map order; exact rational arithmetic."
 },
 "C34": {
  "status": "proved",
  "note": "Every finite voxel set; exact rational arithmetic; outward orientation for positive voxel size."
 },
 "C35": {
  "status": "proved",
  "note": "All models, all iteration orders of both voxel maps."
 },
 "C36": {
  "status": "proved",
  "note": "All models, all map orders; exact rational arithmetic. C36_exact characterises watertightness for every model (both directions)."
 },
 "C37": {
  "status": "proved",
  "note": "All rational coordinates."
 },
 "C38": {
  "status": "proved",
  "note": "Exact rational arithmetic for colours; files written whole by Write; all windows with a start inside the base."
 },
 "C39": {
  "status": "proved",
  "note": "Statement reworded to what the code does; the documented world-space behaviour is refuted by C39_world_space_refuted."
 },
 "C40": {
  "status": "proved",
  "note": "Statement reworded to what the code writes; the expectation of consistent sizes is refuted for every model."
 },
 "C41": {
  "status": "proved",
  "note": "All tile sizes; the abort condition is exact."
 },
 "C42": {
  "status": "proved",
  "note": "Exact rational arithmetic for float64; -smooth and flag parsing not modelled; fauxgl's BoundingBox is modelled from its contract. C42_tile_place, C42_coverage, C42_tile_content, C42_union state agreement; C42_lost_layers and C42_voxels_lost the loss."
 },
 "C43": {
  "status": "proved",
  "note": "The directory is a map from names to bytes; an interruption keeps a prefix of the writes (and, in C43_torn_file, a prefix of the bytes of the current file). Bounding box given or that of the first mesh (stldice_main_default)."
 },
 "C44": {
  "status": "proved",
  "note": "IEEE 754 binary64 through Flocq's BinarySingleNaN (no fused multiply-add); rests on the standard library's real-number axioms. fauxgl's Lerp is modelled as a+(b-a)*t. Flag and box parsing and %g formatting are not modelled."
 },
 "C45": {
  "status": "proved",
  "note": "Model in SvxModel.v, theorems in SvxProps.v; float64 replaced by rationals, PNG encoding not modelled."
 },
 "C46": {
  "status": "proved",
  "note": "Interleaving model in SvxRace.v; each zip.Writer call is one atomic step."
 },
 "C47": {
  "status": "proved",
  "note": "Theorems in SvxReadProps.v; ZIP, PNG and XML decoding not modelled."
 },
 "C53": {
  "status": "proved",
  "note": "SvxProps.v; agent in MasterSvx.v."
 },
 "C48": {
  "status": "proved",
  "note": "StlMerge.v: small-step model of Merge (feeder, semaphore, workers, WaitGroup, collector)."
 },
 "C49": {
  "status": "proved",
  "note": "MasterProps.v; counterexample C49_reregister_ex in MasterEx.v."
 },
 "C50": {
  "status": "proved",
  "note": "MasterJobs.v, MasterSvx.v; examples C50_lossy_ex, C50_concurrent_ex, C50_stuck_ex in MasterEx.v."
 },
 "C51": {
  "status": "proved",
  "note": "SlaveProps.v; examples C51_ex, C51_destroys_ex."
 },
 "C52": {
  "status": "proved",
  "note": "StlParseProps.v; fauxgl's SaveSTL/ParseFloats modelled from knowledge of the library; float conversions abstract."
 },
 "C54": {
  "status": "proved",
  "note": "MrProps.v; gleam assumed to deliver every emitted value once."
 },
 "C55": {
  "status": "proved",
  "note": "IEEE 754 binary64 via Flocq (round to nearest even, NaN payloads identified); int(math.Ceil(x)) proved to be the ceiling of the value. Uses the standard library's real-number axioms. Extra-layer witnesses by computation."
 },
 "C56": {
  "status": "proved",
  "note": "Flocq binary64; six roundings per offset followed through with relative error bounds; int(x) proved to be truncation of the value. Standard real axioms. The misaligned witness is by computation."
 },
 "C57": {
  "status": "proved",
  "note": "Flocq binary64; induction over the growth history. Standard real axioms. The refused tile is by computation on the modelled arithmetic."
 },
 "C58": {
  "status": "proved",
  "note": "exact rational arithmetic; model VoxelizeModel.v, proofs VoxelizeAccuracy.v"
 },
 "C59": {
  "status": "proved",
  "note": "end-to-end composition of C27, C30 and C31; VoxelizeBox.v"
 },
 "C60": {
  "status": "proved",
  "note": "float64 is Flocq binary64; C60_closed_if_symmetric is the general criterion, C60_closed_away and C60_closed_exact give sufficient conditions on the model, C60_gap_float64 and C60_gap_stl show that the meshes of two single-voxel models are not closed (a defect of the code)."
 },
 "C61": {
  "status": "proved",
  "note": "float64 and float32 are Flocq binary64/binary32; exact reals for the cut points. Only edges parallel to an axis need cutting, and the float coordinates are monotone in the grid index."
 },
 "C62": {
  "status": "proved",
  "note": "Forall2 between the binary64 (Flocq) mesh and the rational one of C33-C36; C62_readable: every model has an exact reading; C62_stl: the float32 of an STL file"
 },
 "C63": {
  "status": "proved",
  "note": "IEEE binary64 without fused multiply-add; Model FloatVoxelModel.v, proofs FloatVoxelFill.v, FloatVoxelError.v, FloatVoxelProps.v, FloatVoxelCover.v, FloatVoxelConc.v"
 },
 "C64": {
  "status": "proved",
  "note": "CmdMergeModel.v, CmdMergeProps.v, CmdMergeTiles.v. The prefix has no glob metacharacters and no directory part; reading a listed file does not fail with an I/O error."
 },
 "C65": {
  "status": "proved",
  "note": "C65_dice_then_merge for the aligned case, C65_misplaced_refuted, C65_name_order_over_100 and C65_prefix_of_other_run for the others; exact arithmetic."
 },
 "C66": {
  "status": "proved",
  "note": "MbbModel.v (leftmost-first matcher and the expression), MbbProps.v; strconv.ParseFloat is an arbitrary partial function."
 },
 "C67": {
  "status": "proved",
  "note": "CmdStlModel.v, CmdStlProps.v on top of C48; LoadSTL and SaveSTL (fauxgl) are arbitrary functions."
 },
 "C68": {
  "status": "proved",
  "note": "CmdStlClosed.v; the STL format is any one that keeps the triangles up to a rounding of vertices (C68_example gives one). MarchingCubes in exact arithmetic."
 },
 "C69": {
  "status": "proved",
  "note": "Exact rational coordinates. The upper bound 11/6 holds per block pattern and is not claimed to be attained by a whole model."
 },
 "C70": {
  "status": "proved",
  "note": "Exact rational coordinates. The planes left out are those on which a vertical ray may run along an edge of a template; the winding number is counted by crossings of the vertical ray."
 },
 "C71": {
  "status": "proved",
  "note": "over Q; gl.NewVoxelMesh of fauxgl (not in /repo) is a parameter with a stated contract, which C71_mesher_exists shows a plain implementation to meet."
 },
 "C72": {
  "status": "proved",
  "note": "ZIP decoding and SaveSTL are parameters; svx2stl on a name without .svx and the same name with it writes the same STL twice (C72_clash)."
 },
 "C73": {
  "status": "proved",
  "note": "the call of the master is a parameter (an answer or an error); negative numbers can clash (C73_names_clash)."
 },
 "C74": {
  "status": "proved",
  "note": "the operating system's list of interfaces is the input."
 },
 "C75": {
  "status": "proved",
  "note": "CmdDiceMesh.v; exact arithmetic and an STL format that keeps the coordinates; general position is that of C70 (encloses in MeshSolid.v). Same composition as C65/C68 with C42 and C70."
 },
 "C76": {
  "status": "proved",
  "note": "CmdManifold.v; exact arithmetic; SaveSTL is a parameter."
 },
 "C77": {
  "status": "proved",
  "note": "Exact rational arithmetic."
 },
 "C78": {
  "status": "proved",
  "note": "Exact rational coordinates; composition of C59, C36, C33, C69 and C70."
 },
 "C79": {
  "status": "proved",
  "note": "StldiceScript.v; exact arithmetic, an STL format that keeps the coordinates and the contract of C71 for fauxgl's NewVoxelMesh (met by unit_faces, used in C79_example); of bash only splitting at blanks is modelled, so names are limited to letters, digits and . _ + - not beginning with -; merge-stl is the one with the general filepath.Glob (C86)."
 },
 "C80": {
  "status": "proved",
  "note": "Exact rationals. Hypotheses on the triangles that cut the layer: no almost flat edge, none in the plane, V2 not alone on the plane between V1 and V3 (C30), and the x of a normal is 0 or larger than 1e-9 in size (C31). convex_surface is met by every tetrahedron of a family (wedge_convex). NewVoxelMesh is any function that gives the surface of the voxel cubes (surface_of), as in C71. C80_nested_refuted and C80_leak_refuted are the two limits."
 },
 "C81": {
  "status": "proved",
  "note": "Exact rationals; C79 with C80. Hypotheses on triangles as in C80 (fit); file names of letters, digits and . _ + - not beginning with -; loading a saved STL gives the same triangles; NewVoxelMesh is any function that gives the surface of the voxel cubes. C79_ends says that the script comes to its end."
 },
 "C82": {
  "status": "proved",
  "note": "C82_script: the file of every tile; C82_surface: as a surface; C82_ends, C82_always_ends: the script comes to its end; C82_stale, C82_collision, C82_percent: what goes wrong. The program binvox (not in the repository), %g of a number and %q of the -mbb text are parameters; names have letters, digits and . _ + - only and do not begin with - (for percent signs C82_percent says why)."
 },
 "C83": {
  "status": "proved",
  "note": "C83_tile: one run of voxcut with a window, through the flags on its command line (also with -manifold, for a watertight mesh); C83_corners, C83_dice: voxcut-dice; C83_dry: the printed script, for names of letters, digits and . _ + - not beginning with -, so that nothing is special to bash; C83_layers, C83_merge: the voxels in more than one tile; C83_ends: the runs exist. -smooth is not modelled."
 },
 "C84": {
  "status": "proved",
  "note": "C84_grows: for every surface of the model (voxel_surface); C84_ToMesh: for the mesh of ToMesh, with NewVoxelMesh making two triangles for each face; C84_trips: repeated; C84_example, C84_run: one voxel becomes four. In float64 the walls can fall to either side where voxel corners are not represented exactly."
 },
 "C85": {
  "status": "proved",
  "note": "C85_same: what Voxelize reads of the normals; C85_steep and C85_axis: when smoothing is harmless; C85_run: then whole runs are the same; C85_hollow: the finding, on a prism over a triangle; C85_surface, C85_near_surface, C85_convex: what holds with any angle. SmoothNormalsThreshold of fauxgl is modelled from its contract."
 },
 "C86": {
  "status": "proved",
  "note": "C86_plain, C86_binvox_plain, C86_stl_plain: prefixes without metacharacters; C86_own and C86_foreign: * and ?; C86_class, C86_class_lost, C86_binvox_lost, C86_stl_unchecked: classes; C86_backslash, C86_backslash_end; C86_malformed, C86_malformed_commands; C86_class_any: classes with ranges, negated classes; C86_only_plain: only plain prefixes are safe; C86_stl_class, C86_stl_lost, C86_stl_ends: what merge-stl then does. filepath.Glob is modelled from its documentation."
 }
}