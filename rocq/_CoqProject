-Q theories Verif
theories/Base.v
theories/Dbl.v
theories/Shadow.v
theories/Dbl_facts.v
theories/Shadow_hist.v
theories/Spec_shadow.v
theories/Shadow_proofs.v
theories/Face_proofs.v
theories/Vec_proofs.v
theories/Face3ds_proofs.v
theories/Props_shadow.v
theories/Props_shadow2.v
theories/Decimal.v
theories/Round_proofs.v
theories/Rn_proofs.v
theories/Scan_proofs.v
theories/Streams.v
theories/Lines_proofs.v
theories/Spec_text.v
theories/Off_proofs.v
theories/Props_text.v
theories/Obj_proofs.v
theories/Objw_proofs.v
theories/Props_obj.v
theories/Handlers.v
theories/Spec_io.v
theories/Handlers_proofs.v
theories/Scenefile_proofs.v
theories/T3ds_proofs.v
theories/Xml_proofs.v
theories/Props_io.v
theories/Geom.v
theories/Surface.v
theories/Spec_surface.v
theories/Surface_proofs.v
theories/Facet_geom.v
theories/Prune_proofs.v
theories/Unode_proofs.v
theories/Props_surface.v
theories/Projection.v
theories/Spec_ring.v
theories/Ring_proofs.v
theories/Spec_projection.v
theories/Strip.v
theories/Projection_proofs.v
theories/Envelope_proofs.v
theories/Print_proofs.v
theories/Props_projection.v
theories/Raster.v
theories/Spec_raster.v
theories/Raster_proofs.v
theories/Rect.v
theories/Props_raster.v
theories/Ogr.v
theories/Spec_ogr.v
theories/Props_ogr.v
theories/Float_proofs.v
theories/Dq_proofs.v
theories/Util.v
theories/Spec_util.v
theories/Props_util.v
theories/Props_util2.v
theories/Cli.v
theories/Spec_cli.v
theories/Props_cli.v
theories/Spec_arith.v
theories/Arith_proofs.v
theories/Props_vector.v
theories/Props_mesheq.v
theories/Spec_scenes.v
theories/Scenes_proofs.v
theories/Props_scenes.v
theories/Gdal_hist.v
theories/Props_gdal.v
theories/Spec_num.v
theories/Nearest_proofs.v
theories/Num_proofs.v
theories/Printnum_proofs.v
theories/Props_num.v
theories/Export.v
theories/Spec_export.v
theories/Props_export.v
theories/Dual.v
theories/Spec_dual.v
theories/Edges.v
theories/Spec_edges.v
theories/Sqrt_proofs.v
theories/Rootsq_proofs.v
theories/Sum_proofs.v
theories/Edges_proofs.v
theories/Props_edges.v
theories/Props_area.v
theories/Values.v
theories/Spec_values.v
theories/Props_values.v
theories/Textout.v
theories/Props_textout.v
theories/Nef.v
theories/Props_nef.v
theories/Props_cli2.v
theories/Spec_convert.v
theories/Props_convert.v
theories/Spec_repeat.v
theories/Props_repeat.v
theories/Spec_back.v
theories/Props_back.v
theories/Props_back2.v
theories/Props_raster2.v
theories/Props_ogr2.v
theories/Tiny_proofs.v
theories/Props_dual.v
theories/Props_dual2.v
theories/Props_centre.v
theories/Side.v
theories/Props_side.v
theories/Domain.v
theories/Props_domain.v
theories/Lattice_proofs.v
theories/Props_grid.v
theories/Mean_proofs.v
theories/Props_grid2.v
theories/Spec_image.v
theories/Props_image.v
theories/Spec_origin.v
theories/Props_origin.v
theories/Docopt.v
theories/Spec_line.v
theories/Docopt_proofs.v
theories/Line_proofs.v
theories/Exit_proofs.v
theories/Ortho_line.v
theories/Props_line.v
theories/Format_line.v
theories/Props_line2.v
theories/Height.v
theories/Props_height.v
theories/Selfadd.v
theories/Props_self.v
theories/Stdout.v
theories/Spec_stdout.v
theories/Props_stdout.v
theories/Stod.v
theories/Spec_stod.v
theories/Stod_proofs.v
theories/Props_stod.v
theories/Props_pixel.v
theories/Unodeout.v
theories/Props_unodeout.v
theories/Tests_repo.v
