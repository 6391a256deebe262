C44_first_boundary
C44_last_boundary
C44_last_boundary_exact
C44_last_boundary_misses
C44_monotone
C44_slabs_cover
C44_slabs_disjoint
C55_axis
C55_axis_exact
C55_extra_layer
C55_longest_axis
C55_power_of_two
C56_exact
C56_misaligned
C56_offset
C57_accepted
C57_drift
C57_refused
C57_stays_near
C60_closed_away
C60_closed_exact
C60_closed_if_symmetric
C60_example_away
C60_example_exact
C60_gap_float64
C60_gap_stl
C61_example
C61_watertight
C61_watertight_stl
C62_marching
C62_manifold
C62_stl
C62_readable
C63_range
C63_voxels_near_surface
C63_left_edge
C63_left_edge_refuted
C63_fill
C63_layer
C63_slice_height
C63_surface_covered
C63_any_schedule
C63_no_race
C63_no_deadlock
C63_terminates
C63_facing
