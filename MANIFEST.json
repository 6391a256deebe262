{
 "claims": [
  {
   "property": "C01",
   "status": "proved",
   "theorems": [
    "C01_any_schedule",
    "C01_write_read_round_trip"
   ],
   "note": "All models with at least one voxel, all inside the dimensions; float text round trip is a hypothesis (FloatText)."
  },
  {
   "property": "C02",
   "status": "proved",
   "theorems": [
    "C02_region_write_exact"
   ],
   "note": "All windows with positive extent."
  },
  {
   "property": "C03",
   "status": "proved",
   "theorems": [
    "C03_placement_iff",
    "C03_region_world_displacement",
    "C03_region_world_position_refuted"
   ],
   "note": "Exact rational arithmetic; includes the refutation of unconditional placement."
  },
  {
   "property": "C04",
   "status": "proved",
   "theorems": [
    "C04_data_section_canonical"
   ],
   "note": ""
  },
  {
   "property": "C05",
   "status": "proved",
   "theorems": [
    "C05_any_schedule",
    "C05_read_back_count",
    "C05_reported_count_exact"
   ],
   "note": ""
  },
  {
   "property": "C06",
   "status": "proved",
   "theorems": [
    "C06_read_voxels_in_range",
    "C06_zero_dimension_refuted"
   ],
   "note": "Includes the refutation for a zero dimension, as the statement says."
  },
  {
   "property": "C07",
   "status": "proved",
   "theorems": [
    "C07_read_accepts_iff_well_formed",
    "C07_read_rejects_bad_arguments",
    "C07_read_rejects_bad_start"
   ],
   "note": "Header as produced by the format string; data section arbitrary."
  },
  {
   "property": "C08",
   "status": "proved",
   "theorems": [
    "C08_truncated_file",
    "C08_truncation_detected_refuted"
   ],
   "note": "Both halves: subset for every cut, and silent acceptance witness."
  },
  {
   "property": "C09",
   "status": "proved",
   "theorems": [
    "C09_any_file",
    "C09_documented_window_refuted",
    "C09_windowed_read"
   ],
   "note": "Exact (inclusive) window, for every byte sequence (C09_any_file) and for written files; documented half-open window refuted. Sums start+count are unbounded (they wrap in Go only for dimensions above 2^62)."
  },
  {
   "property": "C10",
   "status": "proved",
   "theorems": [
    "C10_writer_schedule_independent",
    "C10_writer_terminates"
   ],
   "note": "Two-goroutine machine, any capacity, any schedule."
  },
  {
   "property": "C11",
   "status": "proved",
   "theorems": [
    "C11_data_write_failure_is_error",
    "C11_header_error_unreported_refuted",
    "C11_success_iff",
    "C11_success_means_complete_file"
   ],
   "note": "Every combination of outcomes of the two write calls, create and close."
  },
  {
   "property": "C12",
   "status": "proved",
   "theorems": [
    "C12_empty_model_round_trip"
   ],
   "note": ""
  },
  {
   "property": "C13",
   "status": "proved",
   "theorems": [
    "C13_add_changes_one_voxel",
    "C13_build_write_read",
    "C13_color_history",
    "C13_color_model",
    "C13_white_has_priority",
    "C13_white_history",
    "C13_white_model",
    "C13_wrong_kind_panics"
   ],
   "note": ""
  },
  {
   "property": "C14",
   "status": "proved",
   "theorems": [
    "C14_dim_is_max",
    "C14_largest_side_is_scale",
    "C14_mbb_contains_every_voxel",
    "C14_mbb_tight"
   ],
   "note": "Exact rational arithmetic; float rounding not modelled."
  },
  {
   "property": "C15",
   "status": "proved",
   "theorems": [
    "C15_find_neighbors",
    "C15_neighbour_bits"
   ],
   "note": "All integer keys."
  },
  {
   "property": "C16",
   "status": "proved",
   "theorems": [
    "C16_add_to_empty",
    "C16_color_only_refuted",
    "C16_deterministic",
    "C16_new"
   ],
   "note": "All voxel sets, all iteration orders, all growth functions; colour-only refutation included."
  },
  {
   "property": "C17",
   "status": "proved",
   "theorems": [
    "C17_add_sound",
    "C17_sequence"
   ],
   "note": "Sequences of parts at whole-voxel non-negative offsets; single Add for any compatible part."
  },
  {
   "property": "C18",
   "status": "proved",
   "theorems": [
    "C18_incremental_refuted",
    "C18_room_exact",
    "C18_voxels_exact"
   ],
   "note": "Exactness with room, voxel-set exactness without, and a witness history losing an update."
  },
  {
   "property": "C19",
   "status": "proved",
   "theorems": [
    "C19_disjoint_no_duplicates",
    "C19_overlap_duplicates",
    "C19_overlap_refuted"
   ],
   "note": ""
  },
  {
   "property": "C20",
   "status": "proved",
   "theorems": [
    "C20_fractional_offset",
    "C20_indices_nonnegative",
    "C20_mixed_signs_refuted",
    "C20_world_preserved"
   ],
   "note": "Exact rational arithmetic."
  },
  {
   "property": "C21",
   "status": "proved",
   "theorems": [
    "C21_add_outcome",
    "C21_merge_outcome"
   ],
   "note": ""
  },
  {
   "property": "C22",
   "status": "proved",
   "theorems": [
    "C22_dimensions_hold",
    "C22_resolution_kept"
   ],
   "note": "Exact rational arithmetic."
  },
  {
   "property": "C23",
   "status": "proved",
   "theorems": [
    "C23_count",
    "C23_empty",
    "C23_isolated_voxel_lost",
    "C23_long_run_refuted",
    "C23_region_round_trip",
    "C23_round_trip",
    "C23_round_trip_complete",
    "C23_runs_wrap",
    "C23_small_grid"
   ],
   "note": "Whole shells and regions; both losses shown by theorem."
  },
  {
   "property": "C24",
   "status": "proved",
   "theorems": [
    "C24_accepts_iff",
    "C24_bad_arguments",
    "C24_in_range",
    "C24_reads_records",
    "C24_truncation"
   ],
   "note": "All byte strings; truncation for every file, not only written ones."
  },
  {
   "property": "C25",
   "status": "proved",
   "theorems": [
    "C25_any_schedule",
    "C25_goroutine_leak",
    "C25_terminates",
    "C25_write_error"
   ],
   "note": "Two-goroutine machine, any capacity, any schedule, any fault; exact leak condition."
  },
  {
   "property": "C26",
   "status": "proved",
   "theorems": [
    "C26_first_octant"
   ],
   "note": "All integer endpoints (unbounded ints)."
  },
  {
   "property": "C27",
   "status": "proved",
   "theorems": [
    "C27_connected",
    "C27_endpoints",
    "C27_in_box_and_near",
    "C27_one_per_major_step"
   ],
   "note": "All integer endpoints (unbounded ints)."
  },
  {
   "property": "C28",
   "status": "proved",
   "theorems": [
    "C28_in_grid",
    "C28_left",
    "C28_negative_x_refuted",
    "C28_range",
    "C28_zero_dim_error"
   ],
   "note": "Exact rational arithmetic; triangles at distinct addresses."
  },
  {
   "property": "C29",
   "status": "proved",
   "theorems": [
    "C29_any_schedule",
    "C29_header",
    "C29_no_deadlock",
    "C29_no_race",
    "C29_slices",
    "C29_terminates"
   ],
   "note": "All interleavings of the spawned goroutines: fork-join machine with slice and row goroutines; result, absence of races and deadlocks, termination."
  },
  {
   "property": "C30",
   "status": "proved",
   "theorems": [
    "C30_coplanar",
    "C30_exact",
    "C30_exact_refuted",
    "C30_mesh",
    "C30_mesh_exact",
    "C30_middle_vertex_lost",
    "C30_sound"
   ],
   "note": "Exact rational arithmetic; exact outside three named cases, the lossy case is a theorem."
  },
  {
   "property": "C31",
   "status": "proved",
   "theorems": [
    "C31_between_crossings",
    "C31_slice"
   ],
   "note": "All meshes: exact voxel set of a slice; corollary for consistently oriented rows."
  },
  {
   "property": "C32",
   "status": "proved",
   "theorems": [
    "C32_edges",
    "C32_no_panic",
    "C32_tables"
   ],
   "note": "All 256 patterns by kernel computation, lifted to every cell of every model (C32_no_panic)."
  },
  {
   "property": "C33",
   "status": "proved",
   "theorems": [
    "C33_closed",
    "C33_order_independent"
   ],
   "note": "Every finite voxel set, every map order; exact rational arithmetic."
  },
  {
   "property": "C34",
   "status": "proved",
   "theorems": [
    "C34_outward",
    "C34_vertices"
   ],
   "note": "Every finite voxel set; exact rational arithmetic; outward orientation for positive voxel size."
  },
  {
   "property": "C35",
   "status": "proved",
   "theorems": [
    "C35_cells"
   ],
   "note": "All models, all iteration orders of both voxel maps."
  },
  {
   "property": "C36",
   "status": "proved",
   "theorems": [
    "C36_chain_leaks",
    "C36_exact",
    "C36_leaky_exactly",
    "C36_leaky_split",
    "C36_outward",
    "C36_stair",
    "C36_t_junctions",
    "C36_total",
    "C36_watertight",
    "C36_well_composed",
    "C36_wrong_template"
   ],
   "note": "All models, all map orders; exact rational arithmetic. C36_exact characterises watertightness for every model (both directions)."
  },
  {
   "property": "C37",
   "status": "proved",
   "theorems": [
    "C37_irreflexive",
    "C37_lexicographic",
    "C37_runs_agree",
    "C37_sorted_unique",
    "C37_total",
    "C37_transitive"
   ],
   "note": "All rational coordinates."
  },
  {
   "property": "C38",
   "status": "proved",
   "theorems": [
    "C38_deterministic",
    "C38_outcome",
    "C38_output",
    "C38_program",
    "C38_subtract"
   ],
   "note": "Exact rational arithmetic for colours; files written whole by Write; all windows with a start inside the base."
  },
  {
   "property": "C39",
   "status": "proved",
   "theorems": [
    "C39_same_grid",
    "C39_translation_ignored",
    "C39_world_space_refuted"
   ],
   "note": "Statement reworded to what the code does; the documented world-space behaviour is refuted by C39_world_space_refuted."
  },
  {
   "property": "C40",
   "status": "proved",
   "theorems": [
    "C40_chunk_sizes",
    "C40_records",
    "C40_size_is_max",
    "C40_sizes_never_consistent"
   ],
   "note": "Statement reworded to what the code writes; the expectation of consistent sizes is refuted for every model."
  },
  {
   "property": "C41",
   "status": "proved",
   "theorems": [
    "C41_abort",
    "C41_gap_stops_run",
    "C41_names_distinct",
    "C41_no_cuts",
    "C41_no_end",
    "C41_partition",
    "C41_size_too_large",
    "C41_tiles",
    "C41_union"
   ],
   "note": "All tile sizes; the abort condition is exact."
  },
  {
   "property": "C42",
   "status": "proved",
   "theorems": [
    "C42_coverage",
    "C42_empty_tile_file",
    "C42_lost_layers",
    "C42_names_distinct",
    "C42_program",
    "C42_tile_content",
    "C42_tile_place",
    "C42_union",
    "C42_voxels_lost",
    "C42_whole_covers_box"
   ],
   "note": "Exact rational arithmetic for float64; -smooth and flag parsing not modelled; fauxgl's BoundingBox is modelled from its contract. C42_tile_place, C42_coverage, C42_tile_content, C42_union state agreement; C42_lost_layers and C42_voxels_lost the loss."
  },
  {
   "property": "C43",
   "status": "proved",
   "theorems": [
    "C43_default_box",
    "C43_resume",
    "C43_same_files",
    "C43_second_run_prints_nothing",
    "C43_torn_file"
   ],
   "note": "The directory is a map from names to bytes; an interruption keeps a prefix of the writes (and, in C43_torn_file, a prefix of the bytes of the current file). Bounding box given or that of the first mesh (stldice_main_default)."
  },
  {
   "property": "C44",
   "status": "proved",
   "theorems": [
    "C44_count",
    "C44_first_boundary",
    "C44_last_boundary",
    "C44_last_boundary_exact",
    "C44_last_boundary_misses",
    "C44_monotone",
    "C44_shared_faces",
    "C44_slabs_cover",
    "C44_slabs_disjoint",
    "C44_suffix_counts",
    "C44_suffixes_distinct"
   ],
   "note": "IEEE 754 binary64 through Flocq's BinarySingleNaN (no fused multiply-add); rests on the standard library's real-number axioms. fauxgl's Lerp is modelled as a+(b-a)*t. Flag and box parsing and %g formatting are not modelled."
  },
  {
   "property": "C45",
   "status": "proved",
   "theorems": [
    "C45_slice_image",
    "C45_upper_regions_fatal"
   ],
   "note": "Model in SvxModel.v, theorems in SvxProps.v; float64 replaced by rationals, PNG encoding not modelled."
  },
  {
   "property": "C46",
   "status": "proved",
   "theorems": [
    "C46_complete",
    "C46_outcome",
    "C46_schedules"
   ],
   "note": "Interleaving model in SvxRace.v; each zip.Writer call is one atomic step."
  },
  {
   "property": "C47",
   "status": "proved",
   "theorems": [
    "C47_read",
    "C47_roundtrip",
    "C47_slice_numbers",
    "C47_voxel_side"
   ],
   "note": "Theorems in SvxReadProps.v; ZIP, PNG and XML decoding not modelled."
  },
  {
   "property": "C48",
   "status": "proved",
   "theorems": [
    "C48_no_deadlock",
    "C48_pool_bound",
    "C48_result",
    "C48_terminates",
    "C48_zero_workers"
   ],
   "note": "StlMerge.v: small-step model of Merge (feeder, semaphore, workers, WaitGroup, collector)."
  },
  {
   "property": "C49",
   "status": "proved",
   "theorems": [
    "C49_exclusive",
    "C49_registered"
   ],
   "note": "MasterProps.v; counterexample C49_reregister_ex in MasterEx.v."
  },
  {
   "property": "C50",
   "status": "proved",
   "theorems": [
    "C50_agents",
    "C50_archive",
    "C50_distributed",
    "C50_prefix",
    "C50_progress",
    "C50_stuck",
    "C50_terminates"
   ],
   "note": "MasterJobs.v, MasterSvx.v; examples C50_lossy_ex, C50_concurrent_ex, C50_stuck_ex in MasterEx.v."
  },
  {
   "property": "C51",
   "status": "proved",
   "theorems": [
    "C51_added",
    "C51_destroys",
    "C51_file_name",
    "C51_frame",
    "C51_get_keeps",
    "C51_last_add",
    "C51_master",
    "C51_names",
    "C51_no_new_model",
    "C51_replies"
   ],
   "note": "SlaveProps.v; examples C51_ex, C51_destroys_ex."
  },
  {
   "property": "C52",
   "status": "proved",
   "theorems": [
    "C52_ascii",
    "C52_binary",
    "C52_long_line",
    "C52_roundtrip",
    "C52_short",
    "C52_text_not_binary",
    "C52_total"
   ],
   "note": "StlParseProps.v; fauxgl's SaveSTL/ParseFloats modelled from knowledge of the library; float conversions abstract."
  },
  {
   "property": "C53",
   "status": "proved",
   "theorems": [
    "C53_agent",
    "C53_jobs"
   ],
   "note": "SvxProps.v; agent in MasterSvx.v."
  },
  {
   "property": "C54",
   "status": "proved",
   "theorems": [
    "C54_one_region",
    "C54_reducer",
    "C54_slices"
   ],
   "note": "MrProps.v; gleam assumed to deliver every emitted value once."
  },
  {
   "property": "C55",
   "status": "proved",
   "theorems": [
    "C55_axis",
    "C55_axis_exact",
    "C55_extra_layer",
    "C55_longest_axis",
    "C55_power_of_two"
   ],
   "note": "IEEE 754 binary64 via Flocq (round to nearest even, NaN payloads identified); int(math.Ceil(x)) proved to be the ceiling of the value. Uses the standard library's real-number axioms. Extra-layer witnesses by computation."
  },
  {
   "property": "C56",
   "status": "proved",
   "theorems": [
    "C56_exact",
    "C56_misaligned",
    "C56_offset"
   ],
   "note": "Flocq binary64; six roundings per offset followed through with relative error bounds; int(x) proved to be truncation of the value. Standard real axioms. The misaligned witness is by computation."
  },
  {
   "property": "C57",
   "status": "proved",
   "theorems": [
    "C57_accepted",
    "C57_drift",
    "C57_refused",
    "C57_stays_near"
   ],
   "note": "Flocq binary64; induction over the growth history. Standard real axioms. The refused tile is by computation on the modelled arithmetic."
  },
  {
   "property": "C58",
   "status": "proved",
   "theorems": [
    "C58_surface_covered",
    "C58_voxels_near_surface"
   ],
   "note": "exact rational arithmetic; model VoxelizeModel.v, proofs VoxelizeAccuracy.v"
  },
  {
   "property": "C59",
   "status": "proved",
   "theorems": [
    "C59_box"
   ],
   "note": "end-to-end composition of C27, C30 and C31; VoxelizeBox.v"
  },
  {
   "property": "C60",
   "status": "proved",
   "theorems": [
    "C60_closed_away",
    "C60_closed_exact",
    "C60_closed_if_symmetric",
    "C60_gap_float64",
    "C60_gap_stl"
   ],
   "note": "float64 is Flocq binary64; C60_closed_if_symmetric is the general criterion, C60_closed_away and C60_closed_exact give sufficient conditions on the model, C60_gap_float64 and C60_gap_stl show that the meshes of two single-voxel models are not closed (a defect of the code)."
  },
  {
   "property": "C61",
   "status": "proved",
   "theorems": [
    "C61_watertight",
    "C61_watertight_stl"
   ],
   "note": "float64 and float32 are Flocq binary64/binary32; exact reals for the cut points. Only edges parallel to an axis need cutting, and the float coordinates are monotone in the grid index."
  },
  {
   "property": "C62",
   "status": "proved",
   "theorems": [
    "C62_manifold",
    "C62_marching",
    "C62_readable",
    "C62_stl"
   ],
   "note": "Forall2 between the binary64 (Flocq) mesh and the rational one of C33-C36; C62_readable: every model has an exact reading; C62_stl: the float32 of an STL file"
  },
  {
   "property": "C63",
   "status": "proved",
   "theorems": [
    "C63_any_schedule",
    "C63_facing",
    "C63_fill",
    "C63_layer",
    "C63_left_edge",
    "C63_left_edge_refuted",
    "C63_no_deadlock",
    "C63_no_race",
    "C63_range",
    "C63_slice_height",
    "C63_surface_covered",
    "C63_terminates",
    "C63_voxels_near_surface"
   ],
   "note": "IEEE binary64 without fused multiply-add; Model FloatVoxelModel.v, proofs FloatVoxelFill.v, FloatVoxelError.v, FloatVoxelProps.v, FloatVoxelCover.v, FloatVoxelConc.v"
  },
  {
   "property": "C64",
   "status": "proved",
   "theorems": [
    "C64_empty_first",
    "C64_empty_later",
    "C64_force_ignored",
    "C64_merges",
    "C64_only_output",
    "C64_outcome"
   ],
   "note": "CmdMergeModel.v, CmdMergeProps.v, CmdMergeTiles.v. The prefix has no glob metacharacters and no directory part; reading a listed file does not fail with an I/O error."
  },
  {
   "property": "C65",
   "status": "proved",
   "theorems": [
    "C65_dice_then_merge",
    "C65_example",
    "C65_misplaced_refuted"
   ],
   "note": "C65_dice_then_merge for the aligned case, C65_misplaced_refuted, C65_name_order_over_100 and C65_prefix_of_other_run for the others; exact arithmetic."
  },
  {
   "property": "C66",
   "status": "proved",
   "theorems": [
    "C66_accepted",
    "C66_box_read",
    "C66_compact",
    "C66_compact_hyphen",
    "C66_round_trip"
   ],
   "note": "MbbModel.v (leftmost-first matcher and the expression), MbbProps.v; strconv.ParseFloat is an arbitrary partial function."
  },
  {
   "property": "C67",
   "status": "proved",
   "theorems": [
    "C67_again",
    "C67_ends",
    "C67_no_overwrite",
    "C67_only_output",
    "C67_outcome",
    "C67_zero_workers"
   ],
   "note": "CmdStlModel.v, CmdStlProps.v on top of C48; LoadSTL and SaveSTL (fauxgl) are arbitrary functions."
  },
  {
   "property": "C68",
   "status": "proved",
   "theorems": [
    "C68_marching_cubes",
    "C68_merge_closed",
    "C68_pipeline"
   ],
   "note": "CmdStlClosed.v; the STL format is any one that keeps the triangles up to a rounding of vertices (C68_example gives one). MarchingCubes in exact arithmetic."
  },
  {
   "property": "C69",
   "status": "proved",
   "theorems": [
    "C69_manifold",
    "C69_manifold_exact",
    "C69_manifold_watertight",
    "C69_marching_cubes",
    "C69_marching_cubes_surface",
    "C69_stair"
   ],
   "note": "Exact rational coordinates. The upper bound 11/6 holds per block pattern and is not claimed to be attained by a whole model."
  },
  {
   "property": "C70",
   "status": "proved",
   "theorems": [
    "C70_clear_cube",
    "C70_clear_manifold",
    "C70_clear_marching_cubes",
    "C70_inside_cube",
    "C70_inside_manifold",
    "C70_inside_marching_cubes",
    "C70_manifold",
    "C70_manifold_watertight",
    "C70_marching_cubes"
   ],
   "note": "Exact rational coordinates. The planes left out are those on which a vertical ray may run along an edge of a template; the winding number is counted by crossings of the vertical ray."
  },
  {
   "property": "C71",
   "status": "proved",
   "theorems": [
    "C71_mesher_exists",
    "C71_surface",
    "C71_unit_faces",
    "C71_winding",
    "C71_within_mbb"
   ],
   "note": "over Q; gl.NewVoxelMesh of fauxgl (not in /repo) is a parameter with a stated contract, which C71_mesher_exists shows a plain implementation to meet."
  },
  {
   "property": "C72",
   "status": "proved",
   "theorems": [
    "C72_mesh",
    "C72_stl2svx",
    "C72_svx2stl"
   ],
   "note": "ZIP decoding and SaveSTL are parameters; svx2stl on a name without .svx and the same name with it writes the same STL twice (C72_clash)."
  },
  {
   "property": "C73",
   "status": "proved",
   "theorems": [
    "C73_client",
    "C73_names",
    "C73_pipeline"
   ],
   "note": "the call of the master is a parameter (an answer or an error); negative numbers can clash (C73_names_clash)."
  },
  {
   "property": "C74",
   "status": "proved",
   "theorems": [
    "C74_address"
   ],
   "note": "the operating system's list of interfaces is the input."
  },
  {
   "property": "C75",
   "status": "proved",
   "theorems": [
    "C75_dice_mesh_merge"
   ],
   "note": "CmdDiceMesh.v; exact arithmetic and an STL format that keeps the coordinates; general position is that of C70 (encloses in MeshSolid.v). Same composition as C65/C68 with C42 and C70."
  },
  {
   "property": "C76",
   "status": "proved",
   "theorems": [
    "C76_manifold_mesh"
   ],
   "note": "CmdManifold.v; exact arithmetic; SaveSTL is a parameter."
  },
  {
   "property": "C77",
   "status": "proved",
   "theorems": [
    "C77_add_contains",
    "C77_contains_every_voxel",
    "C77_sequence_contains",
    "C77_tight"
   ],
   "note": "Exact rational arithmetic."
  },
  {
   "property": "C78",
   "status": "proved",
   "theorems": [
    "C78_encloses",
    "C78_manifold",
    "C78_manifold_volume",
    "C78_marching_cubes"
   ],
   "note": "Exact rational coordinates; composition of C59, C36, C33, C69 and C70."
  },
  {
   "property": "C79",
   "status": "proved",
   "theorems": [
    "C79_ends",
    "C79_script"
   ],
   "note": "StldiceScript.v; exact arithmetic, an STL format that keeps the coordinates and the contract of C71 for fauxgl's NewVoxelMesh (met by unit_faces, used in C79_example); of bash only splitting at blanks is modelled, so names are limited to letters, digits and . _ + - not beginning with -; merge-stl is the one with the general filepath.Glob (C86)."
  },
  {
   "property": "C80",
   "status": "proved",
   "theorems": [
    "C80_apart",
    "C80_inside",
    "C80_leak_refuted",
    "C80_near",
    "C80_nested_refuted",
    "C80_surface"
   ],
   "note": "Exact rationals. Hypotheses on the triangles that cut the layer: no almost flat edge, none in the plane, V2 not alone on the plane between V1 and V3 (C30), and the x of a normal is 0 or larger than 1e-9 in size (C31). convex_surface is met by every tetrahedron of a family (wedge_convex). NewVoxelMesh is any function that gives the surface of the voxel cubes (surface_of), as in C71. C80_nested_refuted and C80_leak_refuted are the two limits."
  },
  {
   "property": "C81",
   "status": "proved",
   "theorems": [
    "C81_script"
   ],
   "note": "Exact rationals; C79 with C80. Hypotheses on triangles as in C80 (fit); file names of letters, digits and . _ + - not beginning with -; loading a saved STL gives the same triangles; NewVoxelMesh is any function that gives the surface of the voxel cubes. C79_ends says that the script comes to its end."
  },
  {
   "property": "C82",
   "status": "proved",
   "theorems": [
    "C82_always_ends",
    "C82_collision",
    "C82_ends",
    "C82_percent",
    "C82_script",
    "C82_stale",
    "C82_surface"
   ],
   "note": "C82_script: the file of every tile; C82_surface: as a surface; C82_ends, C82_always_ends: the script comes to its end; C82_stale, C82_collision, C82_percent: what goes wrong. The program binvox (not in the repository), %g of a number and %q of the -mbb text are parameters; names have letters, digits and . _ + - only and do not begin with - (for percent signs C82_percent says why)."
  },
  {
   "property": "C83",
   "status": "proved",
   "theorems": [
    "C83_corners",
    "C83_dice",
    "C83_dry",
    "C83_ends",
    "C83_layers",
    "C83_merge",
    "C83_tile"
   ],
   "note": "C83_tile: one run of voxcut with a window, through the flags on its command line (also with -manifold, for a watertight mesh); C83_corners, C83_dice: voxcut-dice; C83_dry: the printed script, for names of letters, digits and . _ + - not beginning with -, so that nothing is special to bash; C83_layers, C83_merge: the voxels in more than one tile; C83_ends: the runs exist. -smooth is not modelled."
  },
  {
   "property": "C84",
   "status": "proved",
   "theorems": [
    "C84_ToMesh",
    "C84_example",
    "C84_grows",
    "C84_trips"
   ],
   "note": "C84_grows: for every surface of the model (voxel_surface); C84_ToMesh: for the mesh of ToMesh, with NewVoxelMesh making two triangles for each face; C84_trips: repeated; C84_example, C84_run: one voxel becomes four. In float64 the walls can fall to either side where voxel corners are not represented exactly."
  },
  {
   "property": "C85",
   "status": "proved",
   "theorems": [
    "C85_axis",
    "C85_convex",
    "C85_hollow",
    "C85_near_surface",
    "C85_run",
    "C85_same",
    "C85_steep",
    "C85_surface"
   ],
   "note": "C85_same: what Voxelize reads of the normals; C85_steep and C85_axis: when smoothing is harmless; C85_run: then whole runs are the same; C85_hollow: the finding, on a prism over a triangle; C85_surface, C85_near_surface, C85_convex: what holds with any angle. SmoothNormalsThreshold of fauxgl is modelled from its contract."
  },
  {
   "property": "C86",
   "status": "proved",
   "theorems": [
    "C86_backslash",
    "C86_backslash_end",
    "C86_binvox_lost",
    "C86_binvox_plain",
    "C86_class",
    "C86_class_any",
    "C86_class_lost",
    "C86_foreign",
    "C86_malformed",
    "C86_malformed_commands",
    "C86_only_plain",
    "C86_own",
    "C86_plain",
    "C86_stl_class",
    "C86_stl_ends",
    "C86_stl_lost",
    "C86_stl_plain",
    "C86_stl_unchecked"
   ],
   "note": "C86_plain, C86_binvox_plain, C86_stl_plain: prefixes without metacharacters; C86_own and C86_foreign: * and ?; C86_class, C86_class_lost, C86_binvox_lost, C86_stl_unchecked: classes; C86_backslash, C86_backslash_end; C86_malformed, C86_malformed_commands; C86_class_any: classes with ranges, negated classes; C86_only_plain: only plain prefixes are safe; C86_stl_class, C86_stl_lost, C86_stl_ends: what merge-stl then does. filepath.Glob is modelled from its documentation."
  }
 ]
}